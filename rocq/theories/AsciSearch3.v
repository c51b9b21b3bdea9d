(** The serial asci_search. *)
From Coq Require Import QArith Qcanon Sorting.Permutation Sorting.Sorted.
From Verif Require Import Base Nondet Bits BitsProofs SD Spec SDProofs SDProofs2 SDProofs3 SDProofs4 SDProofs5 Sums
  FockSpec FockProofs SlaterCondon Ham
  HamProofs HamProofs2 HamProofs3 HamProofs4 HamProofs5 HamProofs6 HamProofs7 HamProofs8 PropsHamGlue
  Asci AsciSpec AsciSort AsciContrib AsciContrib2 AsciSearch AsciSearch2.
Local Open Scope nat_scope.

Lemma vals_app s (l1 l2 : list (N * Qc)) : vals s (l1 ++ l2) = vals s l1 ++ vals s l2.
Proof. unfold vals. rewrite filter_app, map_app. reflexivity. Qed.
Lemma score_app l1 l2 s : score (l1 ++ l2) s = (score l1 s + score l2 s)%Qc.
Proof. unfold score. rewrite vals_app, sum_app. reflexivity. Qed.
Lemma score_map (v : N -> Qc) l t : NoDup l ->
  score (map (fun u => (u, v u)) l) t = if in_dec N.eq_dec t l then v t else 0%Qc.
Proof.
  induction 1 as [|a l Ha Nd IH]; [reflexivity|]. cbn [map].
  change (score ((a, v a) :: map (fun u => (u, v u)) l) t)
    with (score ([(a, v a)] ++ map (fun u => (u, v u)) l) t).
  rewrite score_app, IH. unfold score, vals at 1. cbn [filter fst].
  destruct (N.eqb_spec a t) as [->|Ne]; cbn [map snd sum].
  - destruct (in_dec N.eq_dec t l); [contradiction|]. destruct (in_dec N.eq_dec t (t :: l)) as [|X]; [ring|].
    exfalso. apply X. left; auto.
  - destruct (in_dec N.eq_dec t l) as [I|I], (in_dec N.eq_dec t (a :: l)) as [J|J]; try ring.
    + exfalso. apply J. right; auto.
    + destruct J as [J|J]; contradiction.
Qed.

Section SEARCH.
  Variables (W : nat) (HW : spin_width W) (h : ints).
  Notation n := (norb h).
  Hypothesis Hn : n <= W / 2.
  Hypothesis Vs : forall p q r s, p < n -> q < n -> r < n -> s < n ->
     V_pqrs h p q r s = V_pqrs h r s p q.
  Notation Hm := (ham W n (T_pq h) (V_pqrs h)).
  Variables (dbg : bool) (st : settings) (E0 : Qc) (C : list Qc).
  Notation tol := (h_el_tol st).
  Notation so := (just_singles st).
  Notation contribs := (contribs W h tol E0 so).
  Notation kept := (kept W h tol so).
  Notation contributes := (contributes W h tol so).

  Definition core_ok (D : N) : Prop := in_space W n D /\
    (dbg = true -> bs_count (alpha W D) < n /\ bs_count (beta W D) < n) /\
    (forall t, contributes D t -> E0 <> Hm t t).

  Fixpoint all_contribs (i : nat) (cdets : list N) : list contrib :=
    match cdets with [] => [] | D :: r => contribs (nth i C 0%Qc) D ++ all_contribs (S i) r end.
  Fixpoint all_pairs (i : nat) (cdets : list N) : list (nat * N) :=
    match cdets with [] => [] | D :: r => map (pair i) (kept D) ++ all_pairs (S i) r end.

  Lemma all_len cdets : forall i, length (all_contribs i cdets) = length (all_pairs i cdets).
  Proof.
    induction cdets as [|D r IH]; intros i; cbn [all_contribs all_pairs]; auto.
    rewrite !app_length, IH. unfold AsciSearch.contribs. rewrite !map_length. reflexivity.
  Qed.
  Lemma all_pairs_In cdets : Forall core_ok cdets -> forall i0 i t, In (i, t) (all_pairs i0 cdets) <->
    i0 <= i < i0 + length cdets /\ contributes (nth (i - i0) cdets 0%N) t.
  Proof.
    induction 1 as [|D r HD Hr IH]; intros i0 i t; cbn [all_pairs In length]; [lia|].
    destruct HD as (G & _). rewrite in_app_iff, in_map_iff, IH. split.
    - intros [(u & E & Hu)|[L Hc]].
      + injection E as <- ->. split; [lia|]. rewrite Nat.sub_diag. cbn [nth]. apply kept_In in Hu; auto.
      + split; [lia|]. destruct (i - i0) as [|k] eqn:E; [lia|]. cbn [nth].
        replace (i - S i0) with k in Hc by lia. exact Hc.
    - intros [L Hc]. destruct (i - i0) as [|k] eqn:E; cbn [nth] in Hc.
      + left. exists t. split; [f_equal; lia|]. apply kept_In; auto.
      + right. split; [lia|]. replace (i - S i0) with k by lia. exact Hc.
  Qed.
  Lemma all_pairs_NoDup cdets : Forall core_ok cdets -> forall i0, NoDup (all_pairs i0 cdets).
  Proof.
    induction 1 as [|D r HD Hr IH]; intros i0; cbn [all_pairs]; [constructor|].
    destruct HD as (G & _). apply NoDup_app; auto.
    - apply NoDup_map_inj; [|apply kept_NoDup; auto]. intros; congruence.
    - intros [i t] H1 H2. apply in_map_iff in H1. destruct H1 as (u & E & _). injection E as <- <-.
      apply all_pairs_In in H2; auto. lia.
  Qed.
  Lemma all_contribs_state cdets : Forall core_ok cdets -> forall i t,
    In t (map fst (all_contribs i cdets)) <-> exists D, In D cdets /\ contributes D t.
  Proof.
    induction 1 as [|D r HD Hr IH]; intros i t; cbn [all_contribs map In].
    - split; [tauto|]. intros (D & [] & _).
    - destruct HD as (G & _). rewrite map_app, in_app_iff, IH. unfold AsciSearch.contribs. rewrite map_map. cbn [fst].
      rewrite map_id, kept_In by auto. split.
      + intros [A|(D' & A & B)]; eauto.
      + intros (D' & [<-|A] & B); eauto.
  Qed.

  Lemma loop_ok cdets : Forall core_ok cdets -> forall i acc,
    i + length cdets <= length C -> length (acc ++ all_contribs i cdets) <= pair_size_max st ->
    always (contributions_loop dbg W st h E0 C i cdets acc) (fun out => out = acc ++ all_contribs i cdets).
  Proof.
    induction 1 as [|D r HD Hr IH]; intros i acc LC LP; cbn [contributions_loop all_contribs] in *.
    - apply always_ret. rewrite app_nil_r. reflexivity.
    - cbn [length] in LC. destruct HD as (G & Hd & Hres).
      apply always_bind with (P := fun c => c = nth i C 0%Qc).
      { eapply always_det; [|reflexivity]. unfold at_. rewrite (nth_error_nth' C 0%Qc) by lia. reflexivity. }
      intros c ->. apply always_bind with (P := fun l => l = contribs (nth i C 0%Qc) D).
      { eapply always_det; [|reflexivity]. apply det_ok; auto. }
      intros l ->. rewrite app_assoc in LP.
      apply always_bind with (P := fun l => l = acc ++ contribs (nth i C 0%Qc) D).
      { unfold prune. rewrite app_length in LP.
        destruct (Nat.ltb_spec (pair_size_max st) (length (acc ++ contribs (nth i C 0%Qc) D))); [lia|].
        apply always_ret. reflexivity. }
      intros acc' ->. rewrite app_assoc. apply IH; auto. lia.
  Qed.

  (* scores *)
  Lemma score_all cdets : Forall core_ok cdets -> forall i t,
    score (all_contribs i cdets) t =
      sum (seq 0 (length cdets)) (fun k => if in_dec N.eq_dec t (kept (nth k cdets 0%N))
        then pt_coeff W h E0 (nth (i + k) C 0%Qc) (nth k cdets 0%N) t else 0%Qc).
  Proof.
    induction 1 as [|D r HD Hr IH]; intros i t; cbn [all_contribs length seq sum]; [reflexivity|].
    destruct HD as (G & _). rewrite score_app. unfold AsciSearch.contribs.
    rewrite (score_map (fun u => pt_coeff W h E0 (nth i C 0%Qc) D u)) by (apply kept_NoDup; auto).
    cbn [nth]. rewrite Nat.add_0_r. f_equal. rewrite IH, <- seq_shift, sum_map. apply sum_ext. intros k _.
    cbn [nth]. replace (i + S k) with (S i + k) by lia. reflexivity.
  Qed.
  Notation is_score := (is_score W h tol so E0).
  Lemma is_score_all cdets t : Forall core_ok cdets -> is_score cdets C t (score (all_contribs 0 cdets) t).
  Proof.
    intros Hc. rewrite score_all by auto.
    exists (filter (fun k => if in_dec N.eq_dec t (kept (nth k cdets 0%N)) then true else false) (seq 0 (length cdets))).
    split; [apply NoDup_filter, seq_NoDup|]. split.
    - intros i. rewrite filter_In, in_seq.
      assert (X : i < length cdets -> in_space W n (nth i cdets 0%N)).
      { intros L. rewrite Forall_forall in Hc. apply Hc. apply nth_In. exact L. }
      destruct (in_dec N.eq_dec t (kept (nth i cdets 0%N))) as [I|I]; split.
      + intros [L _]. split; [lia|]. apply kept_In in I; auto. apply X. lia.
      + intros [L _]. split; [lia|auto].
      + intros [_ ?]. discriminate.
      + intros [L I']. exfalso. apply I, kept_In; auto.
    - rewrite sum_filter. apply sum_ext. intros k _. destruct (in_dec N.eq_dec t (kept (nth k cdets 0%N))); reflexivity.
  Qed.
  Lemma is_score_unique cdets t x y : is_score cdets C t x -> is_score cdets C t y -> x = y.
  Proof.
    intros (l1 & N1 & I1 & ->) (l2 & N2 & I2 & ->). apply sum_perm. apply NoDup_Permutation; auto.
    intros i. rewrite I1, I2. reflexivity.
  Qed.
  Lemma contributes_wf D t : contributes D t -> wf W t.
  Proof. intros [[G _] _]. eapply in_space_wf; eauto. Qed.

  Lemma search_ok cdets ndets_max :
    Forall core_ok cdets -> NoDup cdets -> length cdets <= length C -> length cdets <= ndets_max ->
    (N.of_nat ndets_max < 2 ^ 64)%N -> at_most_pairs W h tol so cdets (pair_size_max st) ->
    always (asci_search dbg W st h ndets_max cdets E0 C) (fun out =>
      exists sel, out = sel ++ cdets /\ NoDup out /\ length out <= ndets_max /\
        (forall t, In t sel -> in_space W n t /\ exists x, is_score cdets C t x /\ x <> 0%Qc) /\
        (forall t x u y, In t sel -> ~ In u out -> is_score cdets C t x -> is_score cdets C u y ->
           (Qcabs y <= Qcabs x)%Qc) /\
        (length out < ndets_max -> forall u y, is_score cdets C u y -> y <> 0%Qc -> In u out)).
  Proof.
    intros Hc Nc LC Lm L64 Hp. unfold asci_search, asci_contributions_standard.
    eapply always_bind.
    { apply loop_ok; auto. cbn [app]. rewrite all_len. apply (Hp (all_pairs 0 cdets)).
      - apply all_pairs_NoDup; auto.
      - intros i t H. apply all_pairs_In in H; auto. rewrite Nat.sub_0_r in H. split; [lia|tauto]. }
    intros pairs ->. cbn [app]. set (pairs := all_contribs 0 cdets).
    assert (Pst : forall t, In t (map fst pairs) <-> exists D, In D cdets /\ contributes D t)
      by (intros t; apply all_contribs_state; auto).
    eapply always_bind; [apply sort_acc_ok|].
    { intros t Ht. apply Pst in Ht. destruct Ht as (D & _ & Ht). eapply contributes_wf; eauto. }
    intros uniq (Us & Ui & Uv).
    eapply always_weaken; [|apply (select_ok W ndets_max cdets C uniq)]; auto.
    - intros out (sel & -> & Ns & Lk & Ss & Dm & Fl). exists sel. split; auto.
      assert (SU : forall t x, is_score cdets C t x -> x <> 0%Qc -> In (t, x) uniq).
      { intros t x Hx X0. pose proof (is_score_all cdets t Hc) as Ha. fold pairs in Ha.
        assert (x = score pairs t) by (eapply is_score_unique; eauto). subst x.
        assert (In t (map fst pairs)).
        { destruct Hx as (l & _ & Il & E). destruct l as [|i l]; [exfalso; apply X0; rewrite E; reflexivity|].
          apply Pst. exists (nth i cdets 0%N). destruct (proj1 (Il i) (or_introl eq_refl)). split; auto.
          apply nth_In; auto. }
        apply Ui in H. apply in_map_iff in H. destruct H as ([t' v] & E & Hv). cbn [fst] in E. subst t'.
        rewrite <- (Uv _ _ Hv). exact Hv. }
      assert (US : forall t x, In (t, x) uniq -> is_score cdets C t x).
      { intros t x Hx. rewrite (Uv _ _ Hx). apply is_score_all; auto. }
      split; [|split; [|split; [|split]]].
      + apply NoDup_app; auto. intros t H1 H2. apply Ss in H1. tauto.
      + rewrite app_length. lia.
      + intros t Ht. destruct (Ss _ Ht) as (_ & x & Hx & X0). split; [|eauto].
        apply (in_map fst) in Hx. apply Ui, Pst in Hx. destruct Hx as (D & _ & [[G _] _]). exact G.
      + intros t x u y Ht Hu Hx Hy. destruct (Qc_eq_dec y 0) as [->|Y0].
        { rewrite (Qcabs_id 0) by apply Qcle_refl. apply Qcabs_nonneg. }
        rewrite in_app_iff in Hu. destruct (Ss _ Ht) as (_ & x' & Hx' & _).
        rewrite (is_score_unique _ _ _ _ Hx (US _ _ Hx')). apply (Dm t x' u y); auto.
      + intros Lo u y Hy Y0. rewrite app_length in Lo. rewrite in_app_iff.
        destruct (Fl ltac:(lia) u y (SU u y Hy Y0) Y0); auto.
    - apply NoDup_sorted_lt, Us.
    - intros t Ht. apply Ui, Pst in Ht. destruct Ht as (D & _ & Ht). eapply contributes_wf; eauto.
    - intros t Ht. rewrite Forall_forall in Hc. destruct (Hc _ Ht) as [G _]. eapply in_space_wf; eauto.
  Qed.

  (* whatever the pruning does *)
  Lemma prune_states l : (forall s, In s (map fst l) -> wf W s) ->
    always (prune W st l) (fun l' => forall s, In s (map fst l') -> In s (map fst l)).
  Proof.
    intros Hw. unfold prune. destruct (_ <? _); [|apply always_ret; auto].
    eapply always_bind; [apply std_partition_always|]. intros [p1 p2] [P _]. cbn [fst snd] in *.
    assert (I1 : forall s, In s (map fst p1) -> In s (map fst l)).
    { intros s Hs. apply (Permutation_in s (Permutation_map fst (Permutation_sym P))) in Hs.
      apply in_map_iff in Hs. destruct Hs as (z & <- & Hz). apply filter_In in Hz. apply in_map. tauto. }
    destruct (_ <? _); [|apply always_ret; auto].
    eapply always_weaken; [|apply sort_acc_ok; auto]. intros out (_ & I & _) s Hs. apply I1, I, Hs.
  Qed.
  Lemma loop_states cdets (P : N -> Prop) : (forall t, P t -> wf W t) ->
    Forall core_ok cdets -> (forall D t, In D cdets -> contributes D t -> P t) -> forall i acc,
    i + length cdets <= length C -> (forall s, In s (map fst acc) -> P s) ->
    always (contributions_loop dbg W st h E0 C i cdets acc) (fun out => forall s, In s (map fst out) -> P s).
  Proof.
    intros PW. induction 1 as [|D r HD Hr IH]; intros HP i acc LC Ha; cbn [contributions_loop].
    - apply always_ret. exact Ha.
    - cbn [length] in LC. destruct HD as (G & Hd & Hres).
      apply always_bind with (P := fun c => c = nth i C 0%Qc).
      { eapply always_det; [|reflexivity]. unfold at_. rewrite (nth_error_nth' C 0%Qc) by lia. reflexivity. }
      intros c ->. apply always_bind with (P := fun l => l = contribs (nth i C 0%Qc) D).
      { eapply always_det; [|reflexivity]. apply det_ok; auto. }
      intros l ->.
      assert (S1 : forall s, In s (map fst (acc ++ contribs (nth i C 0%Qc) D)) -> P s).
      { intros s Hs. rewrite map_app, in_app_iff in Hs. destruct Hs as [Hs|Hs]; auto.
        unfold AsciSearch.contribs in Hs. rewrite map_map in Hs. cbn [fst] in Hs. rewrite map_id in Hs.
        apply kept_In in Hs; auto. apply (HP D); auto. left; auto. }
      eapply always_bind; [apply prune_states; auto|]. intros acc' Hacc.
      apply IH; auto; [|lia]. intros D' t HD'. apply HP. right; auto.
  Qed.
  Lemma search_any cdets ndets_max :
    Forall core_ok cdets -> NoDup cdets -> length cdets <= length C -> length cdets <= ndets_max ->
    (N.of_nat ndets_max < 2 ^ 64)%N ->
    always (asci_search dbg W st h ndets_max cdets E0 C) (fun out =>
      exists sel, out = sel ++ cdets /\ NoDup out /\ length out <= ndets_max /\
        (forall t, In t sel -> exists D, In D cdets /\ contributes D t)).
  Proof.
    intros Hc Nc LC Lm L64. unfold asci_search, asci_contributions_standard.
    eapply always_bind.
    { apply (loop_states cdets (fun t => exists D, In D cdets /\ contributes D t)); auto.
      - intros t (D & _ & Ht). eapply contributes_wf; eauto.
      - intros D t HD Ht. eauto.
      - cbn. tauto. }
    cbn beta. intros pairs Pst.
    eapply always_bind; [apply sort_acc_ok|].
    { intros t Ht. apply Pst in Ht. destruct Ht as (D & _ & Ht). eapply contributes_wf; eauto. }
    intros uniq (Us & Ui & Uv).
    eapply always_weaken; [|apply (select_ok W ndets_max cdets C uniq)]; auto.
    - intros out (sel & -> & Ns & Lk & Ss & Dm & Fl). exists sel. split; auto. split; [|split].
      + apply NoDup_app; auto. intros t H1 H2. apply Ss in H1. tauto.
      + rewrite app_length. lia.
      + intros t Ht. destruct (Ss _ Ht) as (_ & x & Hx & X0). apply (in_map fst) in Hx. apply Ui, Pst in Hx. exact Hx.
    - apply NoDup_sorted_lt, Us.
    - intros t Ht. apply Ui, Pst in Ht. destruct Ht as (D & _ & Ht). eapply contributes_wf; eauto.
    - intros t Ht. rewrite Forall_forall in Hc. destruct (Hc _ Ht) as [G _]. eapply in_space_wf; eauto.
  Qed.
End SEARCH.

(** asci_iter, asci_grow, asci_refine. *)
From Coq Require Import QArith Qcanon Sorting.Permutation Sorting.Sorted.
From Verif Require Import Base Nondet Bits BitsProofs SD Spec SDProofs SDProofs2 SDProofs3 SDProofs4 SDProofs5 Sums
  FockSpec FockProofs SlaterCondon Ham
  HamProofs HamProofs2 HamProofs3 HamProofs4 HamProofs5 HamProofs6 HamProofs7 HamProofs8 PropsHamGlue
  Asci AsciSpec AsciSort AsciContrib AsciContrib2 AsciSearch AsciSearch2 AsciSearch3.
Local Open Scope nat_scope.

Lemma returns_sort {A} (lt : A -> A -> bool) l :
  if_returns (std_sort lt l) (fun l' => Permutation l l').
Proof. intros a (l' & E & P & _). injection E as ->. exact P. Qed.

Lemma reorder_len wfn X : if_returns (reorder_ci_on_coeff wfn X) (fun wX =>
  length (fst wX) = length wfn /\ Permutation wfn (fst wX)).
Proof.
  unfold reorder_ci_on_coeff. eapply returns_bind; [apply returns_sort|]. intros idx P.
  destruct (Nat.eqb_spec (length X) (length wfn)) as [E|E]; [|apply returns_det; discriminate].
  apply returns_ret. cbn [fst]. rewrite map_length, <- (Permutation_length P), seq_length. split; auto.
  rewrite <- (Permutation_map (fun i => nth i wfn 0%N) P), E, map_nth_seq. reflexivity.
Qed.

Lemma select_len W m cdets C uniq : length cdets <= m -> (N.of_nat m < 2 ^ 64)%N ->
  if_returns (select_dets W m cdets C uniq) (fun out => (exists sel, out = sel ++ cdets) /\ length out <= m).
Proof.
  intros L1 L2. unfold select_dets. eapply returns_bind; [apply returns_true|]. intros seeds _.
  eapply returns_bind; [apply returns_true|]. intros kp _.
  eapply returns_bind; [apply returns_true|]. intros [p1 p2] _. cbn [fst snd].
  rewrite size_sub_ok by auto. set (k := m - length cdets).
  apply returns_bind with (P := fun s : list contrib => length s <= k).
  - destruct (N.ltb_spec (N.of_nat k) (N.of_nat (length p1))) as [Hk|Hk].
    + apply returns_bind with (P := fun ab => length (fst ab) <= k).
      * intros [a b] H. unfold nth_element in H. rewrite Nnat.Nat2N.id in H.
        destruct (Nat.leb_spec k (length p1)); [|discriminate].
        destruct H as (l1 & l2 & E & _ & Hl & _). injection E as -> ->. cbn [fst]. lia.
      * intros [a b] H. apply returns_ret. exact H.
    + apply returns_ret. lia.
  - intros s Hs. apply returns_ret. split; [eauto|]. rewrite app_length, map_length. unfold k in Hs. lia.
Qed.
Lemma select_returns W m cdets C uniq :
  NoDup (map fst uniq) -> (forall s, In s (map fst uniq) -> wf W s) -> (forall s, In s cdets -> wf W s) ->
  if_returns (select_dets W m cdets C uniq) (selection (N.to_nat (size_sub m (length cdets))) cdets uniq).
Proof.
  intros Nu Wu Wc. destruct (le_lt_dec (length cdets) (length C)) as [L|L].
  - apply always_returns, select_ok_k; auto.
  - unfold select_dets. intros out H. exfalso. destruct H as [(e & _ & E)|(seeds & H & _)]; [discriminate|].
    symmetry in H. apply (mapM_inv _ 0 (0%N, 0%Qc)) in H. destruct H as [_ H]. rewrite seq_length in H.
    specialize (H (length C) L). rewrite seq_nth in H by lia. cbn [Nat.add] in H. revert H.
    unfold at_. rewrite (proj2 (nth_error_None C (length C))) by lia. discriminate.
Qed.

Section ITER.
  Variables (W : nat) (HW : spin_width W) (h : ints).
  Notation n := (norb h).
  Hypothesis Hn : n <= W / 2.
  Hypothesis Vs : forall p q r s, p < n -> q < n -> r < n -> s < n ->
     V_pqrs h p q r s = V_pqrs h r s p q.
  Variables (dbg : bool) (st : settings) (na nb : nat).
  Hypothesis Hd : dbg = true -> na < n /\ nb < n.

  Definition valid1 (D : N) := in_space W n D /\ size_is (alpha W D) na /\ size_is (beta W D) nb.
  Lemma valid1_dbg D : valid1 D -> dbg = true -> bs_count (alpha W D) < n /\ bs_count (beta W D) < n.
  Proof.
    intros (_ & A & B) Q. apply size_is_count in A, B. rewrite A, B. auto.
  Qed.
  Lemma valid1_wf D : valid1 D -> wf W D.
  Proof. intros (G & _). eapply in_space_wf; eauto. Qed.
  Lemma valid1_contributes tol so D t : valid1 D -> contributes W h tol so D t -> valid1 t.
  Proof.
    intros (G & A & B) [[Gt M] _]. split; auto.
    destruct M as [M|[_ M]]; eapply spin_moves_counts; eauto.
  Qed.
  Lemma loop_valid E0 C cdets : Forall valid1 cdets -> forall i acc,
    (forall s, In s (map fst acc) -> valid1 s) ->
    if_returns (contributions_loop dbg W st h E0 C i cdets acc) (fun out => forall s, In s (map fst out) -> valid1 s).
  Proof.
    induction 1 as [|D r HD Hr IH]; intros i acc Ha; cbn [contributions_loop].
    - apply returns_ret. exact Ha.
    - eapply returns_bind; [apply returns_true|]. intros c _.
      apply returns_bind with (P := fun l => forall s, In s (map fst l) -> valid1 s).
      { apply returns_det. intros l Hl s Hs. pose proof HD as [G _].
        apply (det_inv W HW h Hn Vs (h_el_tol st) E0 (just_singles st) D G dbg c l (valid1_dbg D HD)) in Hl.
        subst l. unfold contribs in Hs. rewrite map_map in Hs. cbn [fst] in Hs. rewrite map_id in Hs.
        apply kept_In in Hs; auto. eapply valid1_contributes; eauto. }
      intros l Hl.
      assert (S1 : forall s, In s (map fst (acc ++ l)) -> valid1 s).
      { intros s Hs. rewrite map_app, in_app_iff in Hs. destruct Hs; auto. }
      eapply returns_bind.
      { apply always_returns, (prune_states W st). intros s Hs. apply valid1_wf, S1, Hs. }
      intros acc' Hacc. apply IH. auto.
  Qed.
  Lemma search_valid E0 C m cdets : valid_dets W n na nb cdets ->
    if_returns (asci_search dbg W st h m cdets E0 C) (fun out =>
      valid_dets W n na nb out /\ exists sel, out = sel ++ cdets).
  Proof.
    intros [Nc Vc]. unfold asci_search, asci_contributions_standard.
    eapply returns_bind; [apply loop_valid; [apply Forall_forall, Vc|cbn; tauto]|]. cbn beta. intros pairs Hp.
    eapply returns_bind; [apply always_returns, sort_acc_ok; intros s Hs; apply valid1_wf, Hp, Hs|].
    intros uniq (Us & Ui & _). eapply returns_weaken; [|apply select_returns].
    - intros out (sel & -> & Ns & _ & Ss & _). split; [|eauto]. split.
      + apply NoDup_app; auto. intros t H1 H2. apply Ss in H1. tauto.
      + intros D HD. apply in_app_iff in HD. destruct HD as [HD|HD]; auto.
        destruct (Ss _ HD) as (_ & x & Hx & _). apply (in_map fst) in Hx. apply Ui in Hx. apply Hp, Hx.
    - apply NoDup_sorted_lt, Us.
    - intros s Hs. apply valid1_wf, Hp, Ui, Hs.
    - intros s Hs. apply valid1_wf. apply Vc, Hs.
  Qed.
  Lemma iter_valid dg m s : valid_dets W n na nb (wfn_dets s) ->
    if_returns (asci_iter dbg W st h dg m s) (fun s' => valid_dets W n na nb (wfn_dets s')).
  Proof.
    destruct s as [[E0 wfn] X]. unfold wfn_dets. cbn [fst snd]. intros [Nw Vw]. unfold asci_iter.
    apply returns_bind with (P := fun wX => Permutation wfn (fst wX)).
    { destruct (1 <? length wfn).
      - eapply returns_weaken; [|apply reorder_len]. cbn beta. tauto.
      - apply returns_ret. auto. }
    intros [w' X'] Pw. cbn [fst snd] in *.
    eapply returns_bind.
    { apply (search_valid E0 X' m). split.
      - eapply NoDup_app_l. rewrite firstn_skipn. eapply Permutation_NoDup; eauto.
      - intros D HD. apply Vw. apply (Permutation_in D (Permutation_sym Pw)).
        rewrite <- (firstn_skipn (Nat.min (ncdets_max st) (length w'))). apply in_or_app. auto. }
    intros new [Hnew _]. eapply returns_bind; [apply returns_true|]. intros EX _. apply returns_ret. exact Hnew.
  Qed.
End ITER.

(** one iteration *)
Lemma iter_len dbg W st h dg m s : Nat.min (ncdets_max st) (wfn_size s) <= m -> (N.of_nat m < 2 ^ 64)%N ->
  if_returns (asci_iter dbg W st h dg m s) (fun s' => wfn_size s' <= m /\
    dg (wfn_dets s') (Ok (wfn_energy s', snd s'))).
Proof.
  destruct s as [[E0 wfn] X]. unfold wfn_size, wfn_dets, wfn_energy. cbn [fst snd]. intros L1 L2. unfold asci_iter.
  apply returns_bind with (P := fun wX => length (fst wX) = length wfn).
  { destruct (1 <? length wfn).
    - eapply returns_weaken; [|apply reorder_len]. cbn beta. tauto.
    - apply returns_ret. auto. }
  intros [w' X'] Pw. cbn [fst snd] in *. rewrite Pw.
  apply returns_bind with (P := fun new => length new <= m).
  { unfold asci_search. eapply returns_bind; [apply returns_true|]. intros pairs _.
    eapply returns_bind; [apply returns_true|]. intros uniq _.
    eapply returns_weaken; [|apply select_len; auto].
    - cbn beta. tauto.
    - rewrite firstn_length. lia. }
  intros new Hnew. apply returns_bind with (P := fun EX => dg new (Ok EX)).
  { intros EX H. exact H. }
  intros [E' X2] H. apply returns_ret. cbn [fst snd]. auto.
Qed.

(** growth *)
Section GROW.
  Variables (W : nat) (h : ints) (dbg : bool) (st : settings) (dg : diag).
  Hypothesis Hmax : (N.of_nat (ntdets_max st) < 2 ^ 64)%N.
  Definition grow_to (s : wfn_state) : nat :=
    Nat.min (Nat.max (ntdets_min st) (wfn_size s * grow_factor st)) (ntdets_max st).

  Lemma grow_ok fuel : 1 <= grow_factor st -> forall s, wfn_size s <= ntdets_max st ->
    if_returns (asci_grow fuel dbg W st h dg s) (fun s' => wfn_size s' = ntdets_max st /\
      exists l, path (fun a b => asci_iter dbg W st h dg (grow_to a) a (Ok b) /\
          wfn_size a < ntdets_max st /\ wfn_size b = grow_to a) (s :: l) /\
        last (s :: l) s = s').
  Proof.
    intros Hg. induction fuel as [|f IH]; intros [[E0 wfn] X] Hs; cbn [asci_grow].
    - unfold wfn_size in *. cbn [fst snd] in *. destruct (Nat.ltb_spec (length wfn) (ntdets_max st)).
      + apply returns_det. discriminate.
      + apply returns_ret. cbn [fst snd]. split; [lia|]. exists []. cbn. auto.
    - destruct (Nat.ltb_spec (length wfn) (ntdets_max st)) as [Hl|Hl].
      2:{ unfold wfn_size in *. cbn [fst snd] in *. apply returns_ret. cbn [fst snd]. split; [lia|]. exists []. cbn. auto. }
      set (s := (E0, wfn, X)). fold (grow_to s). change (length wfn) with (wfn_size s) in *.
      fold (grow_to s).
      intros s' [(e & _ & E)|(s1 & H1 & H2)]; [discriminate|].
      assert (LL : Nat.min (ncdets_max st) (wfn_size s) <= grow_to s).
      { unfold grow_to. assert (wfn_size s <= wfn_size s * grow_factor st) by nia. lia. }
      assert (L64 : (N.of_nat (grow_to s) < 2 ^ 64)%N) by (unfold grow_to; lia).
      destruct (iter_len dbg W st h dg (grow_to s) s LL L64 s1 H1) as [Hlen _].
      fold (wfn_size s1) in H2. destruct (Nat.ltb_spec (wfn_size s1) (grow_to s)) as [|Hge]; [discriminate|].
      assert (Hs1 : wfn_size s1 <= ntdets_max st) by (unfold grow_to in Hlen; lia).
      destruct (IH s1 Hs1 s' H2) as (Hf & l & Hp & Hlast). split; auto.
      exists (s1 :: l). split.
      + split; [|exact Hp]. split; auto. split; auto. lia.
      + rewrite <- Hlast. cbn [last]. destruct l; auto. clear. revert w. induction l; intros w; auto. cbn [last]. apply IHl.
  Qed.

  (* enough fuel: the outcomes do not depend on it *)
  Lemma grow_strict s : 2 <= grow_factor st -> 1 <= wfn_size s -> wfn_size s < ntdets_max st ->
    wfn_size s < grow_to s.
  Proof. clear Hmax. intros. unfold grow_to. assert (wfn_size s * 2 <= wfn_size s * grow_factor st) by nia. lia. Qed.
  Lemma grow_fuel : 2 <= grow_factor st -> forall f f' s, 1 <= wfn_size s ->
    ntdets_max st - wfn_size s <= f -> ntdets_max st - wfn_size s <= f' ->
    forall r, asci_grow f dbg W st h dg s r -> asci_grow f' dbg W st h dg s r.
  Proof.
    clear Hmax. intros Hg. induction f as [|f IH]; intros f' [[E0 wfn] X] Hs Hf Hf' r.
    - unfold wfn_size in *. cbn [fst snd] in *.
      destruct f'; cbn [asci_grow]; destruct (Nat.ltb_spec (length wfn) (ntdets_max st)); auto; lia.
    - destruct f' as [|f'].
      { unfold wfn_size in *. cbn [fst snd] in *. cbn [asci_grow].
        destruct (Nat.ltb_spec (length wfn) (ntdets_max st)); auto; lia. }
      cbn [asci_grow]. destruct (Nat.ltb_spec (length wfn) (ntdets_max st)) as [Hl|Hl]; auto.
      set (s := (E0, wfn, X)). change (length wfn) with (wfn_size s) in *. fold (grow_to s).
      intros [(e & He & E)|(s1 & H1 & H2)]; [left; eauto|]. right. exists s1. split; auto.
      fold (wfn_size s1) in *. destruct (Nat.ltb_spec (wfn_size s1) (grow_to s)) as [|Hge]; auto.
      pose proof (grow_strict s Hg Hs Hl). change (wfn_size (E0, wfn, X)) with (wfn_size s) in *.
      apply IH; auto; lia.
  Qed.
End GROW.

Lemma path_mono {A} (R Q : A -> A -> Prop) : (forall x y, R x y -> Q x y) -> forall l, path R l -> path Q l.
Proof.
  intros H. induction l as [|x l IH]; [exact (fun _ => I)|]. destruct l as [|y l]; [exact (fun _ => I)|].
  intros [A1 A2]. split; [apply H, A1|apply IH, A2].
Qed.

(** refinement *)
Lemma refine_ok W h dbg st dg ndets : forall k s, wfn_size s = ndets ->
  if_returns (refine_loop k dbg W st h dg ndets s) (fun s' => wfn_size s' = ndets /\
    exists l, 1 <= length l <= k /\
      path (fun a b => asci_iter dbg W st h dg ndets a (Ok b) /\ wfn_size b = ndets) (s :: l) /\
      last (s :: l) s = s' /\
      (Qcabs (wfn_energy s' - wfn_energy (last (removelast (s :: l)) s)) < refine_energy_tol st)%Qc).
Proof.
  induction k as [|k IH]; intros s Hs; cbn [refine_loop]; [apply returns_det; discriminate|].
  intros s' [(e & _ & E)|(s1 & H1 & H2)]; [discriminate|]. fold (wfn_size s1) in H2.
  destruct (Nat.eqb_spec (wfn_size s1) ndets) as [E1|E1]; cbn [negb] in H2; [|discriminate].
  destruct (abs_lt _ _) eqn:A.
  - injection H2 as ->. split; auto. exists [s1]. cbn [length path last removelast]. split; [lia|]. split; auto.
    split; auto. apply qlt_true, A.
  - destruct (IH s1 E1 s' H2) as (Hf & l & L & Hp & Hl & He). split; auto. exists (s1 :: l).
    cbn [length]. split; [lia|]. split; [split; auto|].
    destruct l as [|s2 l]; [cbn in L; lia|].
    assert (LA : forall (x y : wfn_state) m d d', last (x :: y :: m) d = last (y :: m) d').
    { clear. intros x y m d d'. cbn [last]. destruct m; auto. revert w. induction m; intros w; auto. cbn [last]. apply IHm. }
    split; [rewrite (LA s s1 (s2 :: l) s s1); exact Hl|].
    change (removelast (s :: s1 :: s2 :: l)) with (s :: removelast (s1 :: s2 :: l)).
    change (removelast (s1 :: s2 :: l)) with (s1 :: removelast (s2 :: l)) in *.
    rewrite (LA s s1 (removelast (s2 :: l)) s s1). exact He.
Qed.

(** grow_factor = 1 *)
Lemma grow_hangs W h dbg st (dg : diag) D : spin_width W -> norb h <= W / 2 ->
  (forall p q r s, p < norb h -> q < norb h -> r < norb h -> s < norb h ->
     V_pqrs h p q r s = V_pqrs h r s p q) ->
  grow_factor st = 1 -> ntdets_min st <= 1 -> 1 <= ncdets_max st -> 1 < ntdets_max st ->
  (forall E X, dg [D] (Ok (E, X)) -> core_ok W h dbg st E D /\ 1 <= length X) ->
  (exists E X, dg [D] (Ok (E, X))) -> (forall e, ~ dg [D] (Err e)) ->
  forall fuel E X, dg [D] (Ok (E, X)) ->
    (exists r, asci_grow fuel dbg W st h dg (E, [D], X) r) /\
    forall r, asci_grow fuel dbg W st h dg (E, [D], X) r -> r = Err Hang.
Proof.
  intros HW Hn Vs Hg Hmin Hc Hmax Hdg Hex Herr fuel E X HEX.
  assert (IT : forall E X, dg [D] (Ok (E, X)) -> always (asci_iter dbg W st h dg 1 (E, [D], X))
     (fun s' => exists E' X', s' = (E', [D], X') /\ dg [D] (Ok (E', X')))).
  { intros E1 X1 H1. destruct (Hdg _ _ H1) as [Hcore Hx]. unfold asci_iter. cbn [length].
    change (1 <? 1) with false. apply always_bind with (P := fun wX => wX = ([D], X1)); [apply always_ret; auto|].
    intros wX ->. cbn [fst snd length]. replace (Nat.min (ncdets_max st) 1) with 1 by lia. cbn [firstn].
    apply always_bind with (P := fun new => new = [D]).
    { eapply always_weaken; [|apply (search_any W HW h Hn Vs dbg st E1 X1 [D] 1); auto].
      - intros out (sel & -> & _ & L & _). rewrite app_length in L. cbn [length] in L.
        destruct sel as [|? sel]; [reflexivity|]. cbn [length] in L. lia.
      - constructor; [intros []|constructor].
      - reflexivity. }
    intros new ->. apply always_bind with (P := fun EX => dg [D] (Ok EX)).
    { split.
      - destruct Hex as (E2 & X2 & H2). eauto.
      - intros [[E2 X2]|e] H; [eauto|]. exfalso. eapply Herr; eauto. }
    intros [E2 X2] H2. apply always_ret. exists E2, X2. auto. }
  revert E X HEX. induction fuel as [|f IH]; intros E X HEX; cbn [asci_grow length].
  - destruct (Nat.ltb_spec 1 (ntdets_max st)); [|lia]. split; [exists (Err Hang); reflexivity|]. auto.
  - destruct (Nat.ltb_spec 1 (ntdets_max st)); [|lia]. rewrite Hg.
    replace (Nat.min (Nat.max (ntdets_min st) (1 * 1)) (ntdets_max st)) with 1 by lia.
    destruct (IT E X HEX) as [[r0 Hr0] Hall]. split.
    + destruct (Hall _ Hr0) as (s1 & -> & E' & X' & -> & H'). destruct (IH E' X' H') as [[r Hr] _].
      exists r. right. exists (E', [D], X'). split; auto.
    + intros r [(e & He & _)|(s1 & H1 & H2)].
      * destruct (Hall _ He) as (s1 & Ee & _). discriminate.
      * destruct (Hall _ H1) as (s1' & Ee & E' & X' & -> & H'). injection Ee as ->. cbn [fst snd length] in H2.
        apply (IH E' X' H'). exact H2.
Qed.

(** Intermediate pruning of the ASCI contributions (C51). *)
From Coq Require Import QArith Qcanon Qcabs Sorting.Permutation Sorting.Sorted.
From Verif Require Import Base Nondet Bits SD Spec Sums FockSpec Ham Asci AsciSpec
  AsciSort AsciSearch AsciIter AsciGlue PropsHamGlue Constraint.
Local Open Scope nat_scope.

Section Prune.
  Variables (W : nat) (st : settings) (l : list (N * Qc)).
  Hypothesis (Hw : forall s, In s (map fst l) -> wf W s).

  Let body (k : list (N * Qc) -> nd (list (N * Qc))) :=
    any pr <- std_partition (fun x => abs_gt (snd x) (rv_prune_tol st)) l;
    let l' := fst pr in
    if pair_size_max st <? length l' then k l' else ret l'.
  Lemma split_tol pr : Permutation (filter (fun x => abs_gt (snd x) (rv_prune_tol st)) l) (fst pr) /\
    Permutation (filter (fun x => negb (abs_gt (snd x) (rv_prune_tol st))) l) (snd pr) ->
    Permutation l (fst pr ++ snd pr) /\
    (forall x, In x (fst pr) -> (rv_prune_tol st < Qcabs (snd x))%Qc) /\
    (forall x, In x (snd pr) -> (Qcabs (snd x) <= rv_prune_tol st)%Qc).
  Proof.
    intros [P1 P2]. split; [|split].
    - rewrite <- P1, <- P2. clear. induction l as [|x r IH]; auto. cbn [filter].
      destruct (abs_gt _ _); cbn [negb app]; [constructor; auto|].
      rewrite IH at 1. apply Permutation_middle.
    - intros x Hx. apply (Permutation_in x (Permutation_sym P1)), filter_In in Hx.
      apply qlt_true. apply Hx.
    - intros x Hx. apply (Permutation_in x (Permutation_sym P2)), filter_In in Hx.
      apply qlt_false. apply negb_true_iff. apply Hx.
  Qed.
  Lemma big_wf big small : Permutation l (big ++ small) -> forall s, In s (map fst big) -> wf W s.
  Proof.
    intros P s Hs. apply Hw. eapply Permutation_in; [apply Permutation_map, Permutation_sym, P|].
    rewrite map_app, in_app_iff. auto.
  Qed.
  Lemma c51_pruning :
    always (prune W st l) (fun out =>
      (length l <= pair_size_max st -> out = l) /\
      (pair_size_max st < length l -> exists big small, Permutation l (big ++ small) /\
        (forall x, In x big -> (rv_prune_tol st < Qcabs (snd x))%Qc) /\
        (forall x, In x small -> (Qcabs (snd x) <= rv_prune_tol st)%Qc) /\
        (length big <= pair_size_max st -> out = big) /\
        (pair_size_max st < length big ->
           StronglySorted N.lt (map fst out) /\
           (forall s, In s (map fst out) <-> In s (map fst big)) /\
           forall s v, In (s, v) out -> v = score big s))).
  Proof.
    unfold prune. destruct (Nat.ltb_spec (pair_size_max st) (length l)) as [L|L].
    2:{ apply always_ret. split; auto. intros; lia. }
    eapply always_bind; [apply std_partition_always|]. intros pr H. apply split_tol in H.
    destruct H as (P & B & C). cbv zeta.
    destruct (Nat.ltb_spec (pair_size_max st) (length (fst pr))) as [M|M].
    - eapply always_weaken; [|apply sort_acc_ok; eapply big_wf; eauto].
      intros out H. split; [intros; lia|]. intros _. exists (fst pr), (snd pr).
      split; auto. split; auto. split; auto. split; [intros; lia|auto].
    - apply always_ret. split; [intros; lia|]. intros _. exists (fst pr), (snd pr).
      split; auto. split; auto. split; auto. split; auto. intros; lia.
  Qed.
  Lemma c52_con_pruning size_before :
    size_before <= pair_size_max st ->
    always (con_prune W st size_before l) (fun out =>
      (length l <= pair_size_max st -> out = l) /\
      (pair_size_max st < length l -> exists big small, Permutation l (big ++ small) /\
        (forall x, In x big -> (rv_prune_tol st < Qcabs (snd x))%Qc) /\
        (forall x, In x small -> (Qcabs (snd x) <= rv_prune_tol st)%Qc) /\
        (length big <= pair_size_max st -> out = big) /\
        (pair_size_max st < length big -> exists acc,
           out = firstn size_before big ++ acc /\
           StronglySorted N.lt (map fst acc) /\
           (forall s, In s (map fst acc) <-> In s (map fst (skipn size_before big))) /\
           forall s v, In (s, v) acc -> v = score (skipn size_before big) s))).
  Proof.
    intros Hs. unfold con_prune. destruct (Nat.ltb_spec (pair_size_max st) (length l)) as [L|L].
    2:{ apply always_ret. split; auto. intros; lia. }
    eapply always_bind; [apply std_partition_always|]. intros pr H. apply split_tol in H.
    destruct H as (P & B & C). cbv zeta.
    destruct (Nat.ltb_spec (pair_size_max st) (length (fst pr))) as [M|M].
    - unfold accumulate_from. destruct (Nat.ltb_spec (length (fst pr)) size_before) as [Q|Q]; [lia|].
      eapply always_bind; [apply sort_acc_ok|].
      { intros s Hin. eapply big_wf; eauto. rewrite <- (firstn_skipn size_before (fst pr)), map_app, in_app_iff. auto. }
      intros acc H. apply always_ret. split; [intros; lia|]. intros _. exists (fst pr), (snd pr).
      split; auto. split; auto. split; auto. split; [intros; lia|]. intros _. exists acc. split; auto.
    - apply always_ret. split; [intros; lia|]. intros _. exists (fst pr), (snd pr).
      split; auto. split; auto. split; auto. split; auto. intros; lia.
  Qed.
End Prune.

Lemma c51_pruning_ex : exists l, (forall s, In s (map fst l) -> wf 64 s) /\
  1 < length l /\ 1 < length (filter (fun x => qlt (Q2Qc (1#2)) (Qcabs (snd x))) l) /\
  exists x, In x l /\ (Qcabs (snd x) <= Q2Qc (1 # 2))%Qc.
Proof.
  exists [(5%N, 1%Qc); (3%N, Q2Qc (1#3)); (5%N, Q2Qc (-4))]. split.
  - cbn [map fst In]. intros s [<-|[<-|[<-|[]]]]; wfc.
  - split; [apply Nat.ltb_lt; vm_compute; reflexivity|]. split; [apply Nat.ltb_lt; vm_compute; reflexivity|].
    exists (3%N, Q2Qc (1#3)). split; [cbn; auto|]. vm_compute. discriminate.
Qed.

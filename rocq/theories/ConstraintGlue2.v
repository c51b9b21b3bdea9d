(** The constraint-based search compared with the serial one. *)
From Coq Require Import QArith Qcanon Sorting.Permutation Sorting.Sorted.
From Verif Require Import Base Nondet Bits BitsProofs SD Spec SDProofs SDProofs2 SDProofs3 SDProofs4 SDProofs5 Sums
  FockSpec FockProofs SlaterCondon Ham
  HamProofs HamProofs2 HamProofs3 HamProofs4 HamProofs5 HamProofs6 HamProofs7 HamProofs8 PropsHamGlue
  Asci AsciSpec AsciSort AsciContrib AsciContrib2 AsciSearch AsciSearch2 AsciSearch3 AsciGlue
  Constraint ConstraintSpec ConstraintProofs ConstraintProofs2 ConstraintProofs3 ConstraintDist ConstraintDist2
  ConstraintGlue ConstraintContrib ConstraintSearch ConstraintSearch2 ConstraintSearch3.
Local Open Scope nat_scope.

Section AGREE.
  Variables (W : nat) (HW : spin_width W) (h : ints).
  Notation n := (norb h).
  Hypothesis Hn : n <= W / 2.
  Hypothesis Vs : forall p q r s, p < n -> q < n -> r < n -> s < n ->
     V_pqrs h p q r s = V_pqrs h r s p q.
  Variables (dbg : bool) (st : settings) (E0 : Qc) (C : list Qc) (cdets : list N).
  Notation tol := (h_el_tol st).
  Notation so := (just_singles st).
  Hypothesis HC : length cdets <= length C.
  Hypothesis Hsp : forall D, In D cdets -> in_space W n D /\
    (dbg = true -> bs_count (alpha W D) < n /\ bs_count (beta W D) < n).

  Definition serial : nd (list contrib) :=
    any l <- asci_contributions_standard dbg W st h E0 C cdets; sort_and_accumulate W l.
  Lemma serial_ok : no_resonance W h tol so E0 cdets -> at_most_pairs W h tol so cdets (pair_size_max st) ->
    always serial (fun s => NoDup (map fst s) /\
      forall t x, In (t, x) s <-> is_score W h tol so E0 cdets C t x /\ exists D, In D cdets /\ contributes W h tol so D t).
  Proof.
    intros Hres Hp.
    assert (CO : Forall (core_ok W h dbg st E0) cdets).
    { apply Forall_forall. intros D HD. destruct (Hsp D HD) as [G Hd]. split; auto. split; auto. intros t. apply (Hres D t HD). }
    unfold serial, asci_contributions_standard. eapply always_bind.
    { apply (loop_ok W HW h Hn Vs dbg st E0 C cdets CO 0 []); auto. cbn [app]. rewrite all_len. apply Hp.
      - apply all_pairs_NoDup with (dbg := dbg) (E0 := E0); auto.
      - intros i t H. apply all_pairs_In with (dbg := dbg) (E0 := E0) in H; auto. rewrite Nat.sub_0_r in H. split; [lia|tauto]. }
    cbn beta. intros l ->. cbn [app].
    assert (ST : forall t, In t (map fst (all_contribs W h st E0 C 0 cdets)) <-> exists D, In D cdets /\ contributes W h tol so D t)
      by (intros t; apply (all_contribs_state W h Hn dbg st E0 C); auto).
    eapply always_weaken; [|apply sort_acc_ok].
    - cbn beta. intros s (S1 & S2 & S3). split; [apply NoDup_sorted_lt, S1|].
      assert (SC : forall t, is_score W h tol so E0 cdets C t (score (all_contribs W h st E0 C 0 cdets) t))
        by (intros t; apply (is_score_all W h Hn dbg st E0 C); auto).
      intros t x. split.
      + intros I. split; [rewrite (S3 t x I); apply SC|]. apply ST, S2. apply in_map_iff. exists (t, x). auto.
      + intros [Hx Hd]. apply ST, S2 in Hd. apply in_map_iff in Hd. destruct Hd as ([t' v] & E & I). cbn in E. subst t'.
        pose proof (S3 t v I) as Ev. subst v. replace x with (score (all_contribs W h st E0 C 0 cdets) t); auto.
        eapply is_score_unique; eauto.
    - intros s Hs. apply ST in Hs. destruct Hs as (D & _ & Hs). eapply contributes_wf; eauto.
  Qed.

  Variables (level world : nat).
  Hypothesis Hw : 0 < world.
  Hypothesis Hne : cdets <> [].
  Lemma c52_search : no_resonance_c W h tol E0 cdets C -> at_most_pairs_c W h tol cdets C (pair_size_max st) ->
    always (asci_contributions_constraint dbg W st level h E0 C cdets world) (fun outs =>
      length outs = world /\ NoDup (map fst (concat outs)) /\
      (forall t x, In (t, x) (concat outs) -> is_score_c W h tol E0 cdets C t x /\
         (exists j, contributes_at W h tol cdets C j t) /\ 3 <= bs_count (alpha W t)) /\
      (forall t j, contributes_at W h tol cdets C j t -> 3 + level <= bs_count (alpha W t) ->
         In t (map fst (concat outs)))).
  Proof.
    intros H1 H2. apply search_c_ok; auto.
    - intros D HD. apply Hsp, HD.
    - intros X D HD. apply Hsp; auto.
  Qed.

  Lemma c52_agree :
    so = false -> (forall D, In D cdets -> 3 + level <= bs_count (alpha W D)) ->
    (forall i t, i < length cdets -> linked W h false (nth i cdets 0%N) t ->
       (contributes W h tol false (nth i cdets 0%N) t <-> contributes_c W h tol (nth i C 0%Qc) (nth i cdets 0%N) t)) ->
    no_resonance W h tol so E0 cdets -> at_most_pairs W h tol so cdets (pair_size_max st) ->
    always serial (fun s => always (asci_contributions_constraint dbg W st level h E0 C cdets world)
      (fun outs => Permutation (concat outs) s)).
  Proof.
    intros So Hel Hag Hres Hp.
    assert (CA : forall i t, contributes_at W h tol cdets C i t <-> i < length cdets /\ contributes W h tol so (nth i cdets 0%N) t).
    { intros i t. rewrite So. unfold contributes_at. split; intros [L H]; split; auto.
      - apply Hag; auto. destruct H; auto.
      - apply Hag; auto. destruct H; auto. }
    eapply always_weaken; [|apply serial_ok; auto]. cbn beta. intros s (S1 & S2).
    eapply always_weaken; [|apply c52_search].
    - cbn beta. intros outs (_ & O1 & O2 & O3).
      assert (SC : forall t x, is_score_c W h tol E0 cdets C t x <-> is_score W h tol so E0 cdets C t x).
      { intros t x. unfold is_score_c, is_score. split; intros (l & A & B & E); exists l; split; auto; split; auto;
          intros i; rewrite B, CA; reflexivity. }
      apply NoDup_Permutation.
      + apply NoDup_map_inv in O1. exact O1.
      + apply NoDup_map_inv in S1. exact S1.
      + intros [t x]. split.
        * intros I. apply S2. apply O2 in I. destruct I as (I1 & (j & I2) & _). split; [apply SC, I1|].
          apply CA in I2. exists (nth j cdets 0%N). split; [apply nth_In|]; tauto.
        * intros I. apply S2 in I. destruct I as (I1 & D & ID & I2). apply (In_nth _ _ 0%N) in ID.
          destruct ID as (j & Lj & Ej). subst D.
          assert (CJ : contributes_at W h tol cdets C j t) by (apply CA; auto).
          assert (IT : In t (map fst (concat outs))).
          { apply (O3 t j CJ). destruct I2 as [[G Lk] _].
            assert (EC : bs_count (alpha W t) = bs_count (alpha W (nth j cdets 0%N))).
            { destruct Lk as [Lk|[_ Lk]]; [apply spin_moves_1 in Lk|apply spin_moves_2 in Lk].
              - destruct Lk as [[M _]|[M _]]; [apply count_moves in M; auto|congruence].
              - destruct Lk as [[M _]|[[M _]|[M _]]]; try (apply count_moves in M; auto); congruence. }
            rewrite EC. apply Hel, nth_In, Lj. }
          apply in_map_iff in IT. destruct IT as ([t' v] & E & I). cbn in E. subst t'.
          assert (v = x); [|subst; auto]. apply SC in I1. apply O2 in I. destruct I as [I _].
          eapply is_score_c_unique; eauto.
    - intros i t H. apply CA in H. apply (Hres (nth i cdets 0%N)); [apply nth_In; tauto|tauto].
    - intros l Nl Hl. apply Hp; auto. intros i t I. apply CA. auto.
  Qed.
  (* no screening: the two searches see the same contributions *)
  Lemma c52_tol0 : (tol <= 0)%Qc -> forall c D t, linked W h false D t ->
    (contributes W h tol false D t <-> contributes_c W h tol c D t).
  Proof.
    intros T0 c D t L. assert (P : forall x, (tol <= Qcabs x)%Qc) by (intros x; eapply Qcle_trans; [exact T0|apply Qcabs_nonneg]).
    unfold contributes, contributes_c. split; intros _; split; auto.
  Qed.
  Lemma c52_few : no_resonance_c W h tol E0 cdets C -> at_most_pairs_c W h tol cdets C (pair_size_max st) ->
    (forall D, In D cdets -> bs_count (alpha W D) < 3) ->
    always (asci_contributions_constraint dbg W st level h E0 C cdets world) (fun outs => concat outs = []).
  Proof.
    intros H1 H2 Hf. eapply always_weaken; [|apply c52_search; auto]. cbn beta. intros outs (_ & _ & O2 & _).
    destruct (concat outs) as [|[t x] r]; auto. exfalso. destruct (O2 t x (or_introl eq_refl)) as (_ & (j & Lj & [[G Lk] _]) & L3).
    assert (EC : bs_count (alpha W t) = bs_count (alpha W (nth j cdets 0%N))).
    { destruct Lk as [Lk|[_ Lk]]; [apply spin_moves_1 in Lk|apply spin_moves_2 in Lk].
      - destruct Lk as [[M _]|[M _]]; [apply count_moves in M; auto|congruence].
      - destruct Lk as [[M _]|[[M _]|[M _]]]; try (apply count_moves in M; auto); congruence. }
    specialize (Hf (nth j cdets 0%N) (nth_In _ _ Lj)). lia.
  Qed.
End AGREE.

(** examples and refutations *)
Lemma no_res_check_c W h tol E0 cdets C : norb h <= W / 2 -> (forall D, In D cdets -> in_space W (norb h) D) ->
  forallb (fun D => forallb (fun t => negb (bad W h E0 t)) (targets W h false D)) cdets = true ->
  no_resonance_c W h tol E0 cdets C.
Proof.
  intros Hn G H i t [Li [Lk _]] E. rewrite forallb_forall in H. specialize (H _ (nth_In cdets 0%N Li)).
  rewrite forallb_forall in H. specialize (H t). rewrite (proj2 (bad_spec W h E0 t) E) in H. discriminate H.
  apply targets_In; auto. apply G, nth_In, Li.
Qed.
Lemma pairs_check_c W h tol cdets C m : norb h <= W / 2 -> (forall D, In D cdets -> in_space W (norb h) D) ->
  fold_right Nat.add 0 (map (fun D => length (targets W h false D)) cdets) <= m ->
  at_most_pairs_c W h tol cdets C m.
Proof.
  intros Hn G L l Nl Hl.
  assert (X : length l <= length (flat_map (fun i => map (pair i) (targets W h false (nth i cdets 0%N))) (seq 0 (length cdets)))).
  { apply NoDup_incl_length; auto. intros [i t] H. apply Hl in H. destruct H as [Hi [Hk _]].
    apply in_flat_map. exists i. split; [apply in_seq; lia|]. apply in_map. apply targets_In; auto.
    apply G, nth_In, Hi. }
  rewrite flat_map_len in X.
  erewrite map_ext in X; [|intros; apply map_length].
  rewrite <- (map_map (fun i => nth i cdets 0%N) (fun D => length (targets W h false D))), map_nth_seq in X.
  lia.
Qed.
Definition c_st (tol : Qc) (singles : bool) : settings := mk_settings 100 4 100 tol 0 1000 singles 2 6 (Q2Qc (1 # 1000)).
Definition c_core : list N := [(7 + 2 ^ 32)%N; (11 + 2 ^ 32)%N].
Lemma c_space D : In D c_core -> in_space 64 (norb ex_ints) D.
Proof. intros [<-|[<-|[]]]; spc. Qed.
Lemma c_space2 D : In D c_core -> in_space 64 (norb ex_ints) D /\
  (true = true -> bs_count (alpha 64 D) < norb ex_ints /\ bs_count (beta 64 D) < norb ex_ints).
Proof. intros H. split; [apply c_space, H|]. intros _. destruct H as [<-|[<-|[]]]; vm_compute; auto. Qed.
Lemma c_el D : In D c_core -> 3 + 0 <= bs_count (alpha 64 D).
Proof. intros [<-|[<-|[]]]; vm_compute; auto. Qed.
Lemma c_nores tol C : no_resonance_c 64 ex_ints tol ex_E0 c_core C.
Proof. apply no_res_check_c; [vm_compute; lia|apply c_space|vm_compute; reflexivity]. Qed.
Lemma c_pairs tol C : at_most_pairs_c 64 ex_ints tol c_core C 1000.
Proof. apply pairs_check_c; [vm_compute; lia|apply c_space|]. apply Nat.leb_le. vm_compute. reflexivity. Qed.
Lemma c_nores' tol so : no_resonance 64 ex_ints tol so ex_E0 c_core.
Proof.
  intros D t HD. destruct so.
  - apply no_res_check; [vm_compute; lia|apply c_space, HD|]. destruct HD as [<-|[<-|[]]]; vm_compute; reflexivity.
  - apply no_res_check; [vm_compute; lia|apply c_space, HD|]. destruct HD as [<-|[<-|[]]]; vm_compute; reflexivity.
Qed.
Lemma c_pairs' tol so : at_most_pairs 64 ex_ints tol so c_core 1000.
Proof.
  apply pairs_check; [vm_compute; lia|apply c_space|]. apply Nat.leb_le. destruct so; vm_compute; reflexivity.
Qed.
Definition c_t : N := (14 + 2 ^ 32)%N.
Definition c_d : N := (13 + 2 ^ 33)%N.
Lemma c_t_contrib so : contributes 64 ex_ints (Q2Qc (1 # 100)) so (7 + 2 ^ 32) c_t.
Proof.
  split.
  - split; [spc|]. left. apply spin_moves_1. left. split; [mv|vm_compute; reflexivity].
  - apply big_spec. vm_compute. reflexivity.
Qed.
Definition c_small : list Qc := [Q2Qc (1 # 100000); Q2Qc (1 # 100000)].
Lemma c_t_screened i : ~ contributes_at 64 ex_ints (Q2Qc (1 # 100)) c_core c_small i c_t.
Proof.
  intros [Li [_ H]].
  assert (X : forallb (fun i => negb (alpha 64 c_t =? alpha 64 (nth i c_core 0))%N &&
    abs_lt (nth i c_small 0 * ham 64 (norb ex_ints) (T_pq ex_ints) (V_pqrs ex_ints) c_t (nth i c_core 0%N))%Qc (Q2Qc (1 # 100))) [0; 1] = true)
    by (vm_compute; reflexivity).
  rewrite forallb_forall in X. specialize (X i). cbn [length c_core] in Li.
  assert (I : In i [0; 1]) by (cbn [In]; lia). apply X, andb_prop in I. destruct I as [I1 I2].
  apply negb_true_iff in I1. rewrite I1 in H. unfold abs_lt in I2. apply qlt_true in I2. revert H. apply Qclt_not_le. exact I2.
Qed.
Lemma c52_screen :
  always (serial 64 ex_ints true (c_st (Q2Qc (1 # 100)) false) ex_E0 c_small c_core) (fun s => In c_t (map fst s)) /\
  always (asci_contributions_constraint true 64 (c_st (Q2Qc (1 # 100)) false) 0 ex_ints ex_E0 c_small c_core 2)
    (fun outs => ~ In c_t (map fst (concat outs))).
Proof.
  split.
  - eapply always_weaken; [|apply serial_ok; [left; auto|vm_compute; lia|apply ex_sym|vm_compute; lia|apply c_space2|apply c_nores'|apply c_pairs']].
    cbn beta. intros s [_ H]. apply in_map_iff.
    destruct (is_score_all 64 ex_ints ltac:(vm_compute; lia) true (c_st (Q2Qc (1 # 100)) false) ex_E0 c_small c_core c_t) as (l & A & B & E).
    { apply Forall_forall. intros D HD. destruct (c_space2 D HD) as [G Hd]. split; auto. split; auto. intros t. apply (c_nores' _ _ D t HD). }
    eexists. split; [|apply H; split; [exists l; split; [exact A|split; [exact B|reflexivity]]|]]; [reflexivity|].
    exists (7 + 2 ^ 32)%N. split; [left; auto|]. apply c_t_contrib.
  - eapply always_weaken; [|apply c52_search; [left; auto|vm_compute; lia|apply ex_sym|vm_compute; lia|apply c_space2|lia|discriminate|apply c_nores|apply c_pairs]].
    cbn beta. intros outs (_ & _ & O & _) I. apply in_map_iff in I. destruct I as ([t x] & E & I). cbn in E. subst t.
    apply O in I. destruct I as (_ & (j & Hj) & _). apply (c_t_screened j Hj).
Qed.
Lemma c52_singles :
  always (serial 64 ex_ints true (c_st 0 true) ex_E0 ex_C c_core) (fun s => ~ In c_d (map fst s)) /\
  always (asci_contributions_constraint true 64 (c_st 0 true) 0 ex_ints ex_E0 ex_C c_core 2)
    (fun outs => In c_d (map fst (concat outs))).
Proof.
  split.
  - eapply always_weaken; [|apply serial_ok; [left; auto|vm_compute; lia|apply ex_sym|vm_compute; lia|apply c_space2|apply c_nores'|apply c_pairs']].
    cbn beta. intros s [_ H] I. apply in_map_iff in I. destruct I as ([t x] & E & I). cbn in E. subst t. apply H in I.
    destruct I as (_ & D & HD & [[_ [L|[F _]]] _]); [|discriminate F]. apply spin_moves_1 in L.
    destruct HD as [<-|[<-|[]]].
    + destruct L as [[_ L]|[L _]]; vm_compute in L; discriminate.
    + destruct L as [[_ L]|[L _]]; vm_compute in L; discriminate.
  - eapply always_weaken; [|apply c52_search; [left; auto|vm_compute; lia|apply ex_sym|vm_compute; lia|apply c_space2|lia|discriminate|apply c_nores|apply c_pairs]].
    cbn beta. intros outs (_ & _ & _ & O). apply (O c_d 0); [|vm_compute; lia]. split; [vm_compute; lia|]. split.
    + split; [spc|]. right. split; auto. apply spin_moves_2. right. right. split; mv.
    + apply Qcabs_nonneg.
Qed.
Lemma c52_ex : norb ex_ints <= 64 / 2 /\ length c_core <= length ex_C /\
  (forall D, In D c_core -> in_space 64 (norb ex_ints) D /\
     (true = true -> bs_count (alpha 64 D) < norb ex_ints /\ bs_count (beta 64 D) < norb ex_ints)) /\
  (forall D, In D c_core -> 3 + 0 <= bs_count (alpha 64 D)) /\
  no_resonance_c 64 ex_ints 0 ex_E0 c_core ex_C /\ at_most_pairs_c 64 ex_ints 0 c_core ex_C 1000 /\
  no_resonance 64 ex_ints 0 false ex_E0 c_core /\ at_most_pairs 64 ex_ints 0 false c_core 1000 /\
  contributes_at 64 ex_ints 0 c_core ex_C 0 c_d.
Proof.
  split; [vm_compute; lia|]. split; [vm_compute; lia|]. split; [apply c_space2|]. split; [apply c_el|].
  split; [apply c_nores|]. split; [apply c_pairs|]. split; [apply c_nores'|]. split; [apply c_pairs'|].
  split; [vm_compute; lia|]. split.
  - split; [spc|]. right. split; auto. apply spin_moves_2. right. right. split; mv.
  - apply Qcabs_nonneg.
Qed.

(* pruning: the count of entries that are already merged is not updated *)
Definition p_st : settings := mk_settings 100 4 100 0 1 3 false 2 6 (Q2Qc (1 # 1000)).
Definition p_acc : list contrib := [(1%N, 0%Qc); (2%N, 0%Qc); (3%N, 0%Qc)].
Lemma c52_prune : forall new, Qclt 1 (Qcabs (snd new)) ->
  (any l <- con_prune 64 p_st (length p_acc) (p_acc ++ [new]); accumulate_from 64 (length p_acc) l) (Err UB).
Proof.
  intros new Hnew. right. exists [new]. split.
  - unfold con_prune. cbn [app length p_acc p_st pair_size_max Nat.ltb Nat.leb].
    right. exists ([new], p_acc). split.
    + exists [new], p_acc. split; auto. split; [apply (Permutation_app_comm p_acc [new])|]. split.
      * constructor; auto. unfold abs_gt, p_st. cbn [rv_prune_tol]. apply qlt_true, Hnew.
      * repeat constructor.
    + cbn [fst length Nat.ltb Nat.leb]. reflexivity.
  - reflexivity.
Qed.

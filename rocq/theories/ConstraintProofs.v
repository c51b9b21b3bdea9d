(** Proofs about mask_constraints.hpp: predicate, excitations, counts. *)
From Coq Require Import Sorting.Permutation Sorting.Sorted.
From Verif Require Import Base Nondet Bits BitsProofs SD Spec SDProofs SDProofs2 SDProofs3 Ham Asci Constraint ConstraintSpec.
Local Open Scope nat_scope.

(** counting *)
Lemma count_0 x : bs_count x = 0 <-> forall k, tb x k = false.
Proof.
  rewrite <- size_is_count, size_is_0. split; [intros -> k; apply tb_0|]. intros H. apply tb_ext. intros k.
  rewrite H, tb_0. reflexivity.
Qed.
Lemma count_1 x : bs_count x = 1 <-> exists i, forall k, tb x k = (k =? i).
Proof. rewrite <- size_is_count. apply size_is_1. Qed.
Lemma count_2 x : bs_count x = 2 <-> exists i j, i < j /\ forall k, tb x k = (k =? i) || (k =? j).
Proof. rewrite <- size_is_count. apply size_is_2. Qed.
Lemma count_incl x l : (forall k, tb x k = true -> In k l) -> bs_count x <= length l.
Proof.
  intros H. pose proof (wf_size x) as Hw. rewrite (count_positions _ x Hw).
  apply NoDup_incl_length; [apply positions_NoDup|]. intros k Hk. apply positions_In in Hk. apply H, Hk.
Qed.
Lemma count_ge x l : NoDup l -> (forall k, In k l -> tb x k = true) -> length l <= bs_count x.
Proof.
  intros Nd H. pose proof (wf_size x) as Hw. rewrite (count_positions _ x Hw).
  apply NoDup_incl_length; auto. intros k Hk. apply positions_In'; auto.
Qed.
Lemma count_split x y z : (forall k, tb x k = tb y k || tb z k) -> (forall k, tb y k = true -> tb z k = false) ->
  bs_count x = bs_count y + bs_count z.
Proof.
  intros H D. set (W := N.to_nat (N.size x)).
  assert (Wx : wf W x) by apply wf_size.
  assert (Wy : wf W y). { intros k Hk. specialize (H k). rewrite (Wx k Hk) in H. destruct (tb y k), (tb z k); auto; discriminate. }
  assert (Wz : wf W z). { intros k Hk. specialize (H k). rewrite (Wx k Hk) in H. destruct (tb y k), (tb z k); auto; discriminate. }
  rewrite (count_positions _ x Wx), (count_positions _ y Wy), (count_positions _ z Wz), <- app_length.
  apply Permutation_length, NoDup_Permutation; [apply positions_NoDup| |].
  - apply NoDup_app; try apply positions_NoDup. intros k H1 H2. apply positions_In in H1, H2.
    destruct H1 as [_ H1], H2 as [_ H2]. rewrite (D k H1) in H2. discriminate.
  - intros k. rewrite in_app_iff, !positions_In, H, orb_true_iff. tauto.
Qed.

Lemma size_sub_1 a : 1 <= a -> (N.of_nat a < 2 ^ 64)%N -> size_sub a 1 = N.of_nat (a - 1).
Proof.
  intros H L. unfold size_sub. change (N.of_nat 1) with 1%N.
  rewrite <- (N.mod_small (N.of_nat (a - 1)) (2 ^ 64)) by lia.
  replace (N.of_nat a + 2 ^ 64 - 1)%N with (N.of_nat (a - 1) + 1 * 2 ^ 64)%N by lia.
  apply N.mod_add. lia.
Qed.

(** C29 *)
Lemma satisfies_ok norb c x : valid_con norb c ->
  satisfies_constraint x (con_C c) (con_min c) = true <-> meets c x.
Proof.
  intros (Wc & Hm & Hl & HB & _). unfold satisfies_constraint, meets. rewrite andb_true_iff, !Nat.eqb_eq, count_0.
  split.
  - intros [_ H] i Hi. specialize (H (i - con_min c)). rewrite tb_bs_shr, tb_xor, Nat.sub_add in H by auto.
    apply xorb_eq in H. exact H.
  - intros H. split.
    + f_equal. apply tb_ext. intros k. rewrite tb_and. destruct (Nat.lt_ge_cases k (con_min c)) as [L|L].
      * rewrite Hl by auto. apply andb_false_r.
      * rewrite H by auto. apply andb_diag.
    + intros k. rewrite tb_bs_shr, tb_xor, H by lia. apply xorb_nilpotent.
Qed.

Lemma filter_len_seq (f : nat -> bool) : forall n s, length (filter f (seq s n)) <= n.
Proof. induction n; cbn; intros; [lia|]. destruct (f s); cbn; specialize (IHn (S s)); lia. Qed.

Section EX.
  Variables (W norb : nat) (c : constraint) (det : N).
  Hypothesis HW : norb <= W.
  Hypothesis H64 : (N.of_nat W < 2 ^ 64)%N.
  Hypothesis Hc : valid_con norb c.
  Hypothesis Hd : wf norb det.
  Notation C := (con_C c).
  Notation B := (con_B c).
  Notation m := (con_min c).

  Definition miss : N := N.ldiff C det.
  Definition extra : N := N.ldiff (N.ldiff det C) B.
  Definition lows : N := N.land det B.
  Definition vlow : N := N.ldiff B det.

  Lemma tB k : tb B k = (k <? m).
  Proof.
    destruct Hc as (_ & _ & _ & HB & _). destruct (Nat.ltb_spec k m) as [L|L].
    - apply HB, L.
    - destruct (tb B k) eqn:E; auto. apply HB in E. lia.
  Qed.
  Lemma m_norb : m < norb.
  Proof. destruct Hc as (Wc & Hm & _). destruct (Nat.lt_ge_cases m norb); auto. rewrite Wc in Hm by auto. discriminate. Qed.
  Lemma C_low k : k < m -> tb C k = false.
  Proof. destruct Hc as (_ & _ & Hl & _). apply Hl. Qed.
  Lemma C_wf : wf W C.
  Proof. eapply wf_le; [exact HW|]. apply Hc. Qed.
  Lemma B_wf : wf W B.
  Proof. intros k Hk. rewrite tB. pose proof m_norb. destruct (Nat.ltb_spec k m); auto. lia. Qed.
  Lemma d_wf : wf W det.
  Proof. eapply wf_le; eauto. Qed.
  Lemma miss_high k : tb miss k = true -> m <= k.
  Proof.
    unfold miss. rewrite tb_ldiff. intros H. apply andb_prop in H. destruct (Nat.lt_ge_cases k m) as [L|L]; auto.
    rewrite C_low in H by auto. destruct H; discriminate.
  Qed.
  Lemma extra_high k : tb extra k = true -> m <= k.
  Proof.
    unfold extra. rewrite !tb_ldiff, tB. intros H. apply andb_prop in H. destruct H as [_ H].
    destruct (Nat.ltb_spec k m); auto; discriminate.
  Qed.
  Lemma lows_low k : tb lows k = true -> k < m.
  Proof. unfold lows. rewrite tb_and, tB. destruct (Nat.ltb_spec k m); auto. rewrite andb_false_r. discriminate. Qed.
  Lemma vlow_low k : tb vlow k = true -> k < m.
  Proof. unfold vlow. rewrite tb_ldiff, tB. destruct (Nat.ltb_spec k m); auto. discriminate. Qed.

  (* the masks of the code *)
  Lemma o_C : N.land (N.lxor det C) C = miss.
  Proof. apply tb_ext. intros k. unfold miss. rewrite tb_and, tb_xor, tb_ldiff. destruct (tb det k), (tb C k); reflexivity. Qed.
  Lemma o_miss : N.lxor (N.lxor det C) miss = N.ldiff det C.
  Proof. apply tb_ext. intros k. unfold miss. rewrite !tb_xor, !tb_ldiff. destruct (tb det k), (tb C k); reflexivity. Qed.
  Lemma o_no_miss : bs_count miss = 0 -> N.lxor det C = N.ldiff det C.
  Proof.
    intros H. rewrite count_0 in H. apply tb_ext. intros k. specialize (H k). unfold miss in H.
    rewrite tb_ldiff in H. rewrite tb_xor, tb_ldiff. destruct (tb det k), (tb C k); auto; discriminate.
  Qed.
  Lemma v_eq : N.land (N.land (bs_not W det) (mask W norb)) B = vlow.
  Proof.
    apply tb_ext. intros k. unfold vlow. rewrite !tb_and, tb_ldiff, tb_not, tb_mask, tB by (auto using d_wf).
    pose proof m_norb. destruct (Nat.ltb_spec k W), (Nat.ltb_spec k norb), (Nat.ltb_spec k m), (tb det k); auto; lia.
  Qed.
  Lemma o_nb : N.land (N.ldiff det C) (bs_not W B) = extra.
  Proof.
    apply tb_ext. intros k. unfold extra. rewrite tb_and, !tb_ldiff, tb_not by apply B_wf.
    destruct (Nat.ltb_spec k W); auto. rewrite d_wf by auto. reflexivity.
  Qed.
  Lemma o_b : N.land (N.ldiff det C) B = lows.
  Proof.
    apply tb_ext. intros k. unfold lows. rewrite !tb_and, tb_ldiff, tB.
    destruct (Nat.ltb_spec k m); [|rewrite !andb_false_r; auto]. rewrite C_low by auto. rewrite !andb_true_r. reflexivity.
  Qed.
  Lemma o_no_extra : bs_count extra = 0 -> N.ldiff det C = lows.
  Proof.
    intros H. rewrite count_0 in H. apply tb_ext. intros k. specialize (H k). unfold extra in H. unfold lows.
    rewrite !tb_ldiff, tB in *. rewrite tb_and, tB in *. destruct (Nat.ltb_spec k m).
    - rewrite C_low by auto. rewrite !andb_true_r. reflexivity.
    - rewrite !andb_true_r in H. rewrite H, andb_false_r. reflexivity.
  Qed.
  Lemma miss_count : bs_count C = bs_count (N.land det C) + bs_count miss.
  Proof.
    apply count_split; intros k; unfold miss; rewrite tb_and, ?tb_ldiff; destruct (tb det k), (tb C k); auto; discriminate.
  Qed.
  Lemma C_count : 3 <= bs_count C /\ bs_count C <= W.
  Proof.
    destruct Hc as (_ & _ & _ & _ & k & Hk & Sk). apply size_is_count in Sk. split; [lia|].
    rewrite (count_positions W) by apply C_wf. unfold positions. apply filter_len_seq.
  Qed.

  Lemma con_single_eq : con_single_ex W det C (mask W norb) B =
    if (1 <? bs_count miss) || (1 <? bs_count extra) then (0, 0)%N
    else (if bs_count extra =? 1 then extra else lows, if bs_count miss =? 1 then miss else vlow).
  Proof.
    unfold con_single_ex. destruct C_count as [C3 CW]. rewrite size_sub_1 by lia. pose proof miss_count as MC.
    rewrite v_eq, o_C.
    destruct (Nat.ltb_spec 1 (bs_count miss)) as [M|M]; cbn [orb].
    - destruct (N.ltb_spec (N.of_nat (bs_count (N.land det C))) (N.of_nat (bs_count C - 1))); auto. lia.
    - destruct (N.ltb_spec (N.of_nat (bs_count (N.land det C))) (N.of_nat (bs_count C - 1))); [lia|].
      destruct (Nat.eqb_spec (bs_count miss) 1) as [M1|M1].
      + rewrite o_miss, o_nb. destruct (Nat.ltb_spec 1 (bs_count extra)) as [X|X]; auto.
        destruct (Nat.eqb_spec (bs_count extra) 1); auto. rewrite o_no_extra by lia. reflexivity.
      + rewrite o_no_miss, o_nb by lia. destruct (Nat.ltb_spec 1 (bs_count extra)) as [X|X]; auto.
        destruct (Nat.eqb_spec (bs_count extra) 1); auto. rewrite o_no_extra by lia. reflexivity.
  Qed.

  (* moving [out] to [inn] *)
  Lemma meets_char t (out inn : nat -> bool) :
    (forall k, tb t k = xorb (xorb (tb det k) (out k)) (inn k)) ->
    (forall k, out k = true -> tb det k = true) -> (forall k, inn k = true -> tb det k = false) ->
    meets c t <->
      (forall k, tb miss k = true -> inn k = true) /\ (forall k, tb extra k = true -> out k = true) /\
      (forall k, out k = true -> tb extra k || tb lows k = true) /\
      (forall k, inn k = true -> k < m \/ tb miss k = true).
  Proof.
    intros Ht Ho Hi. unfold meets. split.
    - intros H. split; [|split; [|split]]; intros k Hk.
      + pose proof (miss_high k Hk) as L. specialize (H k L). rewrite Ht in H. unfold miss in Hk. rewrite tb_ldiff in Hk.
        destruct (tb C k), (tb det k) eqn:E, (out k) eqn:Eo, (inn k) eqn:Ei; auto; try discriminate.
        apply Ho in Eo. congruence.
      + pose proof (extra_high k Hk) as L. specialize (H k L). rewrite Ht in H. unfold extra in Hk. rewrite !tb_ldiff in Hk.
        destruct (tb C k), (tb det k) eqn:E, (out k) eqn:Eo, (inn k) eqn:Ei; auto; try discriminate.
        apply Hi in Ei. congruence.
      + unfold extra, lows. rewrite !tb_ldiff, tb_and, tB, (Ho k Hk). destruct (Nat.ltb_spec k m) as [L|L].
        * cbn. apply orb_true_r.
        * specialize (H k L). rewrite Ht, Hk, (Ho k Hk) in H. destruct (inn k) eqn:Ei.
          { apply Hi in Ei. rewrite Ho in Ei; auto. discriminate. }
          cbn in H. rewrite <- H. reflexivity.
      + destruct (Nat.lt_ge_cases k m) as [L|L]; auto. right. specialize (H k L). unfold miss.
        rewrite tb_ldiff, <- H, Ht, Hk, (Hi k Hk). destruct (out k) eqn:Eo; auto. apply Ho in Eo.
        rewrite (Hi k Hk) in Eo. discriminate.
    - intros (H1 & H2 & H3 & H4) k L. rewrite Ht. specialize (H1 k). specialize (H2 k). specialize (H3 k). specialize (H4 k).
      assert (NL : tb lows k = false). { destruct (tb lows k) eqn:E; auto. apply lows_low in E. lia. }
      assert (XX : tb extra k = tb det k && negb (tb C k)).
      { unfold extra. rewrite !tb_ldiff, tB. destruct (Nat.ltb_spec k m); [lia|]. apply andb_true_r. }
      assert (MM : tb miss k = tb C k && negb (tb det k)) by (unfold miss; apply tb_ldiff).
      rewrite XX in *. rewrite NL, MM in *. specialize (Ho k). specialize (Hi k).
      destruct (tb C k), (tb det k), (out k), (inn k); cbn in *; auto;
      try (specialize (Ho eq_refl); discriminate); try (specialize (Hi eq_refl); discriminate);
      try (specialize (H1 eq_refl); discriminate); try (specialize (H2 eq_refl); discriminate);
      try (specialize (H3 eq_refl); discriminate); try (destruct (H4 eq_refl); [lia|discriminate]).
  Qed.

  (* singles *)
  Definition con_o : list nat := positions W (fst (con_single_ex W det C (mask W norb) B)).
  Definition con_v : list nat := positions W (snd (con_single_ex W det C (mask W norb) B)).
  Lemma single_masks_wf : wf W (fst (con_single_ex W det C (mask W norb) B)) /\
    wf W (snd (con_single_ex W det C (mask W norb) B)).
  Proof.
    rewrite con_single_eq. destruct (_ || _); [split; apply wf_0|]. cbn [fst snd]. 
    assert (wf W miss /\ wf W extra /\ wf W lows /\ wf W vlow).
    { repeat split; intros k Hk; unfold miss, extra, lows, vlow; rewrite ?tb_ldiff, ?tb_and, ?tb_ldiff.
      - rewrite C_wf; auto.
      - rewrite d_wf; auto.
      - rewrite d_wf; auto.
      - rewrite B_wf; auto. }
    split; [destruct (_ =? _)|destruct (_ =? _)]; tauto.
  Qed.
  Lemma con_single_In i a : In i con_o /\ In a con_v <->
    tb det i = true /\ tb det a = false /\ a < norb /\ meets c (flip2 det (i, a)).
  Proof.
    unfold con_o, con_v. destruct single_masks_wf as [W1 W2]. rewrite !positions_In' by auto. clear W1 W2.
    assert (CH : tb det i = true -> tb det a = false -> meets c (flip2 det (i, a)) <->
       ((forall k, tb miss k = true -> k = a) /\ (forall k, tb extra k = true -> k = i) /\
        tb extra i || tb lows i = true /\ (a < m \/ tb miss a = true))).
    { intros Ti Ta. rewrite (meets_char (flip2 det (i, a)) (fun k => k =? i) (fun k => k =? a)).
      - split.
        + intros (H1 & H2 & H3 & H4). split; [intros k Hk; apply Nat.eqb_eq; auto|]. split; [intros k Hk; apply Nat.eqb_eq; auto|].
          split; [apply H3, Nat.eqb_refl|apply H4, Nat.eqb_refl].
        + intros (H1 & H2 & H3 & H4). split; [intros k Hk; apply Nat.eqb_eq; auto|]. split; [intros k Hk; apply Nat.eqb_eq; auto|].
          split; intros k Hk; apply Nat.eqb_eq in Hk; subst k; auto.
      - intros k. unfold flip2. cbn [fst snd]. rewrite !tb_flip. reflexivity.
      - intros k Hk. apply Nat.eqb_eq in Hk. congruence.
      - intros k Hk. apply Nat.eqb_eq in Hk. congruence. }
    rewrite con_single_eq. split.
    - destruct (Nat.ltb_spec 1 (bs_count miss)) as [M|M]; cbn [orb fst snd]; [rewrite !tb_0; intuition discriminate|].
      destruct (Nat.ltb_spec 1 (bs_count extra)) as [X|X]; cbn [orb fst snd]; [rewrite !tb_0; intuition discriminate|].
      intros [Hi Ha].
      assert (Ti : tb det i = true).
      { destruct (_ =? 1) in Hi; unfold extra, lows in Hi; rewrite ?tb_ldiff, ?tb_and in Hi;
        destruct (tb det i); auto; discriminate. }
      assert (Ta : tb det a = false /\ a < norb).
      { pose proof m_norb. destruct (_ =? 1) in Ha.
        - unfold miss in Ha. rewrite tb_ldiff in Ha. apply andb_prop in Ha. destruct Ha as [A1 A2].
          split; [destruct (tb det a); auto; discriminate|]. destruct (Nat.lt_ge_cases a norb); auto.
          rewrite (proj1 Hc) in A1 by auto. discriminate.
        - pose proof (vlow_low a Ha). unfold vlow in Ha. rewrite tb_ldiff in Ha. apply andb_prop in Ha. destruct Ha as [A1 A2].
          split; [destruct (tb det a); auto; discriminate|lia]. }
      destruct Ta as [Ta La]. split; auto. split; auto. split; auto. apply CH; auto. split; [|split; [|split]].
      + destruct (Nat.eqb_spec (bs_count miss) 1) as [E|E].
        * apply count_1 in E. destruct E as [z Ez]. intros k Hk. rewrite Ez in Ha, Hk.
          apply Nat.eqb_eq in Ha, Hk. congruence.
        * assert (E0 : bs_count miss = 0) by lia. rewrite count_0 in E0. intros k Hk. rewrite E0 in Hk. discriminate.
      + destruct (Nat.eqb_spec (bs_count extra) 1) as [E|E].
        * apply count_1 in E. destruct E as [z Ez]. intros k Hk. rewrite Ez in Hi, Hk.
          apply Nat.eqb_eq in Hi, Hk. congruence.
        * assert (E0 : bs_count extra = 0) by lia. rewrite count_0 in E0. intros k Hk. rewrite E0 in Hk. discriminate.
      + destruct (bs_count extra =? 1); rewrite Hi; auto using orb_true_r.
      + destruct (bs_count miss =? 1); auto. left. apply vlow_low, Ha.
    - intros (Ti & Ta & La & H). apply CH in H; auto. destruct H as (H1 & H2 & H3 & H4).
      assert (M : bs_count miss <= 1) by (apply (count_incl miss [a]); intros k Hk; left; symmetry; auto).
      assert (X : bs_count extra <= 1) by (apply (count_incl extra [i]); intros k Hk; left; symmetry; auto).
      destruct (Nat.ltb_spec 1 (bs_count miss)); [lia|]. destruct (Nat.ltb_spec 1 (bs_count extra)); [lia|]. cbn [orb fst snd].
      split.
      + destruct (Nat.eqb_spec (bs_count extra) 1) as [E|E].
        * apply count_1 in E. destruct E as [z Ez]. rewrite Ez.
          rewrite (H2 z); [apply Nat.eqb_refl|rewrite Ez; apply Nat.eqb_refl].
        * assert (E0 : bs_count extra = 0) by lia. rewrite count_0 in E0. rewrite E0 in H3. exact H3.
      + destruct (Nat.eqb_spec (bs_count miss) 1) as [E|E].
        * apply count_1 in E. destruct E as [z Ez]. rewrite Ez.
          rewrite (H1 z); [apply Nat.eqb_refl|rewrite Ez; apply Nat.eqb_refl].
        * assert (E0 : bs_count miss = 0) by lia. rewrite count_0 in E0. rewrite E0 in H4. destruct H4 as [H4|H4]; [|discriminate].
          unfold vlow. rewrite tb_ldiff, tB, Ta. destruct (Nat.ltb_spec a m); auto. lia.
  Qed.
End EX.

(** Proofs about sd_operations, part 5: the statements used by Props_SD. *)
From Coq Require Import Sorting.Permutation Sorting.Sorted QArith Qcanon Ascii.
From Verif Require Import Base Bits BitsProofs SD Spec SDProofs SDProofs2 SDProofs3 SDProofs4.
Local Open Scope nat_scope.

Lemma among_first_rank e n k p : among_first e n k p <-> rank e n p < k.
Proof.
  unfold among_first, rank. set (l0 := filter (fun q => precedes_b e q p) (seq 0 n)).
  assert (N0 : NoDup l0) by apply NoDup_filter, seq_NoDup.
  assert (I0 : forall q, In q l0 <-> q < n /\ precedes e q p).
  { intros q. unfold l0. rewrite filter_In, in_seq.
    destruct (precedes_b_spec e q p); split; intros [A B]; split; try lia; auto; discriminate. }
  split.
  - intros (l & Nl & Il & Hl). assert (length l0 <= length l); [|lia].
    apply NoDup_incl_length; auto. intros q Hq. apply Il, I0, Hq.
  - intros H. exists l0. auto.
Qed.

Lemma hf_ens_spec W na nb ens :
  Nat.even W = true -> length ens <= W / 2 -> na <= length ens -> nb <= length ens ->
  exists r, canonical_hf_ens W na nb ens = Ok r /\ in_space W (length ens) r /\
    (forall p, p < length ens ->
       (tb r p = true <-> among_first (fun i => nth i ens 0%Qc) (length ens) na p)) /\
    (forall p, p < length ens ->
       (tb r (p + W / 2) = true <-> among_first (fun i => nth i ens 0%Qc) (length ens) nb p)).
Proof.
  intros HW Hl Ha Hb. destruct (canonical_hf_ens_ok W na nb ens HW Hl Ha Hb) as (r & E & S & A & B).
  exists r. split; [exact E|]. split; [exact S|]. split; intros p Hp; rewrite among_first_rank; auto.
Qed.

Lemma virt_sorted norb s : increasing (virt norb s).
Proof. apply filter_sorted, seq_sorted. Qed.

Lemma virt_In norb s i : In i (virt norb s) <-> i < norb /\ tb s i = false.
Proof.
  unfold virt. rewrite filter_In, in_seq, negb_true_iff. intuition lia.
Qed.

Lemma occ_vir_spec dbg W norb s :
  norb <= W -> wf norb s -> (dbg = true -> bs_count s < norb) ->
  exists occ vir, bitset_to_occ_vir dbg W norb s = Ok (occ, vir) /\
    increasing occ /\ increasing vir /\
    (forall p, In p occ <-> tb s p = true) /\
    (forall p, In p vir <-> p < norb /\ tb s p = false) /\
    length occ + length vir = norb.
Proof.
  intros HW Hs Hd. exists (positions norb s), (virt norb s).
  split; [apply occ_vir_ok; auto|]. split; [apply positions_sorted|].
  split; [apply virt_sorted|]. split; [|split; [apply virt_In|apply occ_virt_length]].
  intros p. apply positions_In'. exact Hs.
Qed.

Lemma occ_vir_as_spec dbg W norb s l :
  (forall i, In i l -> i < W) -> (dbg = true -> bs_count s <= norb) -> NoDup l ->
  bitset_to_occ_vir_as dbg W norb s l =
    Ok (filter (tb s) l, filter (fun i => negb (tb s i)) l).
Proof.
  intros Hl Hd Hn. apply occ_vir_as_ok; auto. intros D. specialize (Hd D).
  assert (size_is s (bs_count s)) as (m & Nm & Im & Lm) by (apply size_is_count; reflexivity).
  assert (length (filter (tb s) l) <= length m); [|lia].
  apply NoDup_incl_length; [apply NoDup_filter, Hn|].
  intros q Hq. apply filter_In in Hq. apply Im, Hq.
Qed.

Lemma positions_count norb s : wf norb s -> length (positions norb s) = bs_count s.
Proof.
  intros Hs. symmetry. apply size_is_count. exists (positions norb s).
  split; [apply positions_NoDup|]. split; auto. intros i. apply positions_In'; auto.
Qed.

Lemma singles_spec dbg W norb s :
  norb <= W -> wf norb s -> (dbg = true -> bs_count s < norb) ->
  exists l, generate_singles dbg W norb s = Ok l /\ NoDup l /\
    length l = bs_count s * (norb - bs_count s) /\
    (forall t, In t l <-> wf norb t /\ moves 1 s t).
Proof.
  intros HW Hs Hd. exists (singles_of s (positions norb s) (virt norb s)).
  split; [apply generate_singles_ok; auto|]. split.
  { apply singles_of_NoDup; [apply positions_NoDup|apply NoDup_filter, seq_NoDup| |].
    - intros i Hi. apply positions_In' in Hi; auto.
    - intros i Hi. apply virt_In in Hi. tauto. }
  split; [|intros t; apply singles_moves; auto].
  unfold singles_of. rewrite map_length, single_pairs_length.
  pose proof (occ_virt_length norb s). rewrite positions_count in * by auto.
  replace (length (virt norb s)) with (norb - bs_count s) by lia. lia.
Qed.

Lemma doubles_spec dbg W norb s :
  norb <= W -> wf norb s -> (dbg = true -> bs_count s < norb) ->
  exists l, generate_doubles dbg W norb s = Ok l /\ NoDup l /\
    length l = binom (bs_count s) 2 * binom (norb - bs_count s) 2 /\
    (forall t, In t l <-> wf norb t /\ moves 2 s t).
Proof.
  intros HW Hs Hd. exists (doubles_of s (positions norb s) (virt norb s)).
  split; [apply generate_doubles_ok; auto|]. split.
  { change (positions norb s) with (occ_in s (seq 0 norb)).
    change (virt norb s) with (vir_in s (seq 0 norb)).
    apply doubles_list_NoDup, seq_NoDup. }
  split; [|intros t; apply doubles_moves; auto].
  unfold doubles_of. rewrite map_length, double_quads_length.
  pose proof (occ_virt_length norb s). rewrite positions_count in * by auto.
  replace (length (virt norb s)) with (norb - bs_count s) by lia. lia.
Qed.

Lemma singles_doubles_spec dbg W norb s :
  norb <= W -> wf norb s -> (dbg = true -> bs_count s < norb) ->
  exists l d, generate_singles_doubles dbg W norb s = Ok (l, d) /\
    generate_singles dbg W norb s = Ok l /\ generate_doubles dbg W norb s = Ok d.
Proof.
  intros HW Hs Hd. do 2 eexists. split; [apply generate_singles_doubles_ok; auto|].
  split; [apply generate_singles_ok; auto|apply generate_doubles_ok; auto].
Qed.

Lemma occ_in_le s l : NoDup l -> length (occ_in s l) <= bs_count s.
Proof.
  intros Hn.
  assert (size_is s (bs_count s)) as (m & Nm & Im & Lm) by (apply size_is_count; reflexivity).
  rewrite <- Lm. apply NoDup_incl_length; [apply NoDup_filter, Hn|].
  intros q Hq. apply filter_In in Hq. apply Im, Hq.
Qed.

Lemma as_spec dbg W norb s l :
  NoDup l -> (forall i, In i l -> i < W) -> (dbg = true -> bs_count s <= norb) ->
  exists a d, generate_singles_doubles_as dbg W norb s l = Ok (a, d) /\
    generate_singles_as dbg W norb s l = Ok a /\
    NoDup a /\ (forall t, In t a <-> moves 1 s t /\ changes_in l s t) /\
    NoDup d /\ (forall t, In t d <-> moves 2 s t /\ changes_in l s t).
Proof.
  intros Hn Hl Hd. assert (D : dbg = true -> length (occ_in s l) <= norb).
  { intros X. specialize (Hd X). pose proof (occ_in_le s l Hn). lia. }
  do 2 eexists. split; [apply generate_singles_doubles_as_ok; auto|].
  split; [apply generate_singles_as_ok; auto|].
  split; [apply singles_list_NoDup; auto|]. split; [intros t; apply singles_list|].
  split; [apply doubles_list_NoDup; auto|]. intros t; apply doubles_list; auto.
Qed.

Lemma spin_as_spec dbg W norb s l : spin_width W ->
  NoDup l -> (forall i, In i l -> i < W / 2) -> wf W s ->
  (dbg = true -> bs_count (alpha W s) <= norb /\ bs_count (beta W s) <= norb) ->
  exists a d, generate_singles_doubles_spin_as dbg W norb s l = Ok (a, d) /\
    generate_singles_spin_as dbg W norb s l = Ok a /\
    NoDup a /\ (forall t, In t a <-> wf W t /\ spin_moves W 1 s t /\ spin_changes_in W l s t) /\
    NoDup d /\ (forall t, In t d <-> wf W t /\ spin_moves W 2 s t /\ spin_changes_in W l s t).
Proof.
  intros HW Hn Hl Hs Hd.
  assert (Da : dbg = true -> length (occ_in (alpha W s) l) <= norb).
  { intros X. specialize (Hd X). pose proof (occ_in_le (alpha W s) l Hn). lia. }
  assert (Db : dbg = true -> length (occ_in (beta W s) l) <= norb).
  { intros X. specialize (Hd X). pose proof (occ_in_le (beta W s) l Hn). lia. }
  do 2 eexists. split; [apply generate_singles_doubles_spin_as_ok; auto|].
  split; [apply generate_singles_spin_as_ok; auto|].
  split; [apply spin_list_singles_NoDup; auto|].
  split; [intros t; apply spin_list_singles_In; auto|].
  split; [apply spin_list_doubles_NoDup; auto|].
  intros t; apply spin_list_doubles_In; auto.
Qed.

Lemma spin_spec dbg W norb s : spin_width W -> norb <= W / 2 -> in_space W norb s ->
  (dbg = true -> bs_count (alpha W s) < norb /\ bs_count (beta W s) < norb) ->
  exists l d, generate_singles_doubles_spin dbg W norb s = Ok (l, d) /\
    generate_singles_spin dbg W norb s = Ok l /\
    NoDup l /\ (forall t, In t l <-> in_space W norb t /\ spin_moves W 1 s t) /\
    NoDup d /\ (forall t, In t d <-> in_space W norb t /\ spin_moves W 2 s t).
Proof.
  intros HW Hn Hs Hd.
  assert (Da : dbg = true -> bs_count (alpha W s) < norb) by (intros; apply Hd; auto).
  assert (Db : dbg = true -> bs_count (beta W s) < norb) by (intros; apply Hd; auto).
  do 2 eexists. split; [apply full_singles_doubles_ok; eauto|].
  split; [apply full_singles_ok; eauto|].
  split; [eapply full_singles_NoDup; eauto|].
  split; [eapply full_singles_In; eauto|].
  split; [eapply full_doubles_NoDup; eauto|eapply full_doubles_In; eauto].
Qed.

Lemma spin_moves_counts W k s t na nb : spin_moves W k s t ->
  size_is (alpha W s) na -> size_is (beta W s) nb ->
  size_is (alpha W t) na /\ size_is (beta W t) nb.
Proof.
  intros (ka & kb & _ & Ma & Mb) Ha Hb. split; eapply size_moves; eauto.
Qed.

Lemma cis_cisd_spec dbg W norb s : spin_width W -> norb <= W / 2 -> in_space W norb s ->
  (dbg = true -> bs_count (alpha W s) < norb /\ bs_count (beta W s) < norb) ->
  (exists l, generate_cis dbg W norb s = Ok l /\ NoDup l /\
    forall t, In t l <-> in_space W norb t /\ exists k, k <= 1 /\ spin_moves W k s t) /\
  (exists l, generate_cisd dbg W norb s = Ok l /\ NoDup l /\
    forall t, In t l <-> in_space W norb t /\ exists k, k <= 2 /\ spin_moves W k s t).
Proof.
  intros HW Hn Hs Hd.
  assert (Da : dbg = true -> bs_count (alpha W s) < norb) by (intros; apply Hd; auto).
  assert (Db : dbg = true -> bs_count (beta W s) < norb) by (intros; apply Hd; auto).
  split; [apply cis_spec|apply cisd_spec]; auto.
Qed.

Lemma combs_spec W n k : n <= W -> k <= n ->
  exists l, (exists f0, forall fuel, f0 <= fuel -> generate_combs fuel W n k = Ok l) /\
    NoDup l /\ length l = binom n k /\ forall x, In x l <-> wf n x /\ size_is x k.
Proof.
  intros HW Hk. exists (combs W n k). split.
  { exists (length (vecs n k)). intros fuel Hf. apply combs_ok; auto. }
  split; [apply combs_NoDup; auto|]. split; [apply combs_length|].
  intros x. apply combs_In. auto.
Qed.

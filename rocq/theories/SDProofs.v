(** Proofs about sd_operations: occupations, excitations, spaces. *)
From Coq Require Import Sorting.Permutation Sorting.Sorted.
From Verif Require Import Base Bits BitsProofs SD Spec.

(** ** sizes *)

Lemma tb_bound x i : tb x i = true -> i < N.to_nat (N.size x).
Proof.
  intros H. destruct (Nat.ltb_spec i (N.to_nat (N.size x))); auto.
  assert (x <> 0%N) by (intros ->; rewrite tb_0 in H; discriminate).
  rewrite tb_above_log2 in H; [discriminate|].
  rewrite N.size_log2 in H0 by auto. lia.
Qed.

Lemma wf_size x : wf (N.to_nat (N.size x)) x.
Proof.
  intros i Hi. destruct (tb x i) eqn:E; auto. apply tb_bound in E. lia.
Qed.

Lemma positions_In' W x i : wf W x -> In i (positions W x) <-> tb x i = true.
Proof.
  intros Hx. rewrite positions_In. split; [tauto|]. intros H; split; auto.
  destruct (Nat.ltb_spec i W); auto. rewrite Hx in H by auto. discriminate.
Qed.

Lemma size_is_count x n : size_is x n <-> bs_count x = n.
Proof.
  pose proof (wf_size x) as Hw. split.
  - intros (l & Hn & Hi & <-). rewrite (count_positions _ x Hw).
    apply Permutation_length, NoDup_Permutation; auto using positions_NoDup.
    intros i. rewrite Hi. apply positions_In', Hw.
  - intros <-. exists (positions (N.to_nat (N.size x)) x).
    split; [apply positions_NoDup|]. split; [intros i; apply positions_In', Hw|].
    symmetry. apply count_positions, Hw.
Qed.

Lemma size_is_fun x n m : size_is x n -> size_is x m -> n = m.
Proof. rewrite !size_is_count. congruence. Qed.

Lemma tb_ldiff x y i : tb (N.ldiff x y) i = tb x i && negb (tb y i).
Proof. apply N.ldiff_spec. Qed.

Lemma size_is_0 x : size_is x 0 <-> x = 0%N.
Proof.
  split.
  - intros (l & _ & Hi & Hl). destruct l; [|discriminate]. apply tb_ext.
    intros i. rewrite tb_0. destruct (tb x i) eqn:E; auto. apply Hi in E. destruct E.
  - intros ->. exists []. split; [constructor|]. split; [|reflexivity].
    intros i. rewrite tb_0. split; [intros []|discriminate].
Qed.

Lemma size_is_1 x : size_is x 1 <-> exists i, forall k, tb x k = (k =? i).
Proof.
  split.
  - intros (l & _ & Hi & Hl). destruct l as [|i [|]]; try discriminate.
    exists i. intros k. destruct (Nat.eqb_spec k i) as [->|Hn].
    + apply Hi. left; reflexivity.
    + destruct (tb x k) eqn:E; auto. apply Hi in E. destruct E as [E|[]]; congruence.
  - intros [i H]. exists [i]. split; [constructor; [tauto|constructor]|].
    split; [|reflexivity]. intros k. rewrite H. cbn [In].
    destruct (Nat.eqb_spec k i); intuition congruence.
Qed.

Lemma size_is_2 x : size_is x 2 <->
  exists i j, i < j /\ forall k, tb x k = (k =? i) || (k =? j).
Proof.
  split.
  - intros (l & Hn & Hi & Hl). destruct l as [|i [|j [|]]]; try discriminate.
    assert (Hij : i <> j). { inversion Hn; subst. cbn [In] in *. intuition. }
    assert (K : forall k, tb x k = (k =? i) || (k =? j)).
    { intros k. destruct (tb x k) eqn:E.
      - apply Hi in E. destruct E as [->|[->|[]]]; rewrite Nat.eqb_refl;
        [reflexivity|rewrite orb_true_r; reflexivity].
      - destruct (Nat.eqb_spec k i) as [->|]; [|destruct (Nat.eqb_spec k j) as [->|]]; auto;
        exfalso.
        + assert (tb x i = true) by (apply Hi; cbn [In]; auto). congruence.
        + assert (tb x j = true) by (apply Hi; cbn [In]; auto). congruence. }
    destruct (Nat.lt_total i j) as [H|[H|H]]; [exists i, j; auto|congruence|].
    exists j, i. split; auto. intros k. rewrite K. apply orb_comm.
  - intros (i & j & Hij & H). exists [i; j]. split; [|split; [|reflexivity]].
    + constructor; [cbn [In]; lia|constructor; [tauto|constructor]].
    + intros k. rewrite H. cbn [In].
      destruct (Nat.eqb_spec k i), (Nat.eqb_spec k j); cbn [orb]; intuition congruence.
Qed.

(** ** list helpers *)

Lemma NoDup_map_inj {A B} (f : A -> B) l :
  (forall x y, In x l -> In y l -> f x = f y -> x = y) -> NoDup l -> NoDup (map f l).
Proof.
  intros Hf Hn. induction Hn as [|a l Ha Hn IH]; cbn [map]; constructor.
  - intros H. apply in_map_iff in H. destruct H as (y & Hy & Hi).
    apply Hf in Hy; cbn [In]; auto. subst. auto.
  - apply IH. intros x y Hx Hy. apply Hf; cbn [In]; auto.
Qed.

Lemma NoDup_app {A} (l1 l2 : list A) :
  NoDup l1 -> NoDup l2 -> (forall x, In x l1 -> In x l2 -> False) -> NoDup (l1 ++ l2).
Proof.
  intros H1 H2 Hd. induction H1 as [|a l Ha H1 IH]; cbn [app]; auto.
  constructor.
  - intros Hi. apply in_app_or in Hi. destruct Hi; [auto|].
    apply (Hd a); cbn [In]; auto.
  - apply IH. intros x Hx. apply Hd. cbn [In]; auto.
Qed.

Lemma NoDup_flat_map {A B} (f : A -> list B) l :
  NoDup l -> (forall a, In a l -> NoDup (f a)) ->
  (forall a b x, In a l -> In b l -> In x (f a) -> In x (f b) -> a = b) ->
  NoDup (flat_map f l).
Proof.
  intros Hn Hf Hd. induction Hn as [|a l Ha Hn IH]; cbn [flat_map]; [constructor|].
  apply NoDup_app.
  - apply Hf. cbn [In]; auto.
  - apply IH; [intros b Hb; apply Hf; cbn [In]; auto|].
    intros b c x Hb Hc. apply Hd; cbn [In]; auto.
  - intros x Hx Hi. apply in_flat_map in Hi. destruct Hi as (b & Hb & Hxb).
    assert (a = b) by (apply (Hd a b x); cbn [In]; auto). subst. auto.
Qed.

Lemma flat_map_length_const {A B} (f : A -> list B) l n :
  (forall a, In a l -> length (f a) = n) -> length (flat_map f l) = length l * n.
Proof.
  induction l as [|a l IH]; intros H; cbn [flat_map length]; [reflexivity|].
  rewrite app_length, H, IH; cbn [In]; auto. intros b Hb. apply H. cbn [In]; auto.
Qed.

Lemma NoDup_list_prod {A B} (l : list A) (m : list B) :
  NoDup l -> NoDup m -> NoDup (list_prod l m).
Proof.
  intros Hl Hm. induction Hl as [|a l Ha Hl IH]; cbn [list_prod]; [constructor|].
  apply NoDup_app; auto.
  - apply NoDup_map_inj; auto. intros x y _ _ E. congruence.
  - intros [x y] H1 H2. apply in_map_iff in H1. destruct H1 as (z & E & _).
    injection E as -> _. apply in_prod_iff in H2. tauto.
Qed.

Lemma sorted_tails_In (l : list nat) :
  StronglySorted lt l -> forall i r, In (i, r) (tails l) ->
  In i l /\ StronglySorted lt r /\ forall j, In j r <-> In j l /\ i < j.
Proof.
  induction 1 as [|a l Hl IH Ha]; cbn [tails In]; intros i r H; [tauto|].
  rewrite Forall_forall in Ha. destruct H as [H|H].
  - injection H as <- <-. split; auto. split; auto. intros j; split.
    + intros Hj. split; auto.
    + intros [[<-|Hj] Hlt]; [lia|auto].
  - apply IH in H. destruct H as (H1 & H2 & H3). split; auto. split; auto.
    intros j. rewrite H3. specialize (Ha _ H1). split; [tauto|].
    intros [[<-|Hj] Hlt]; [lia|auto].
Qed.

Lemma tails_complete (l : list nat) i :
  In i l -> exists r, In (i, r) (tails l).
Proof.
  induction l as [|a l IH]; cbn [In tails]; [tauto|]. intros [->|H].
  - eauto.
  - destruct (IH H) as [r Hr]. eauto.
Qed.

Lemma tails_fst (l : list nat) : map fst (tails l) = l.
Proof. induction l as [|a l IH]; cbn [tails map fst]; congruence. Qed.

Lemma tails_NoDup (l : list nat) : NoDup l -> NoDup (tails l).
Proof. intros H. apply (NoDup_map_inv fst). rewrite tails_fst. exact H. Qed.

Lemma sorted_pairs_In l i j :
  StronglySorted lt l ->
  (exists r, In (i, r) (tails l) /\ In j r) <-> In i l /\ In j l /\ i < j.
Proof.
  intros Hs. split.
  - intros (r & H & Hj). destruct (sorted_tails_In l Hs i r H) as (H1 & _ & H3).
    apply H3 in Hj. tauto.
  - intros (Hi & Hj & Hlt). destruct (tails_complete l i Hi) as [r Hr].
    exists r. split; auto. destruct (sorted_tails_In l Hs i r Hr) as (_ & _ & H3).
    apply H3. auto.
Qed.

(** ** occupied and virtual lists *)

(** virtual orbitals of [s] below [norb] *)
Definition virt (norb : nat) (s : N) : list nat := filter (fun i => negb (tb s i)) (seq 0 norb).

Lemma virt_In norb s i : In i (virt norb s) <-> i < norb /\ tb s i = false.
Proof. unfold virt. rewrite filter_In, in_seq, negb_true_iff. intuition lia. Qed.
Lemma virt_sorted norb s : StronglySorted lt (virt norb s).
Proof. apply filter_sorted, seq_sorted. Qed.

Lemma occ_virt_length norb s : length (positions norb s) + length (virt norb s) = norb.
Proof.
  unfold positions, virt. rewrite <- (seq_length norb 0) at 3.
  generalize (seq 0 norb) as l. induction l as [|a l IH]; cbn [filter length]; auto.
  destruct (tb s a); cbn [negb length]; lia.
Qed.

Lemma occ_vir_ok dbg W norb s :
  norb <= W -> wf norb s -> (dbg = true -> bs_count s < norb) ->
  bitset_to_occ_vir dbg W norb s =
    Ok (positions norb s, filter (fun i => negb (tb s i)) (seq 0 norb)).
Proof.
  intros HW Hs Hd. assert (Hs' : wf W s) by (eapply wf_le; eauto).
  unfold bitset_to_occ_vir. rewrite bits_to_indices_ok by auto. cbn [bind].
  assert (Ep : positions W s = positions norb s).
  { apply sorted_ext; try apply positions_sorted.
    intros i. rewrite !positions_In' by auto. tauto. }
  rewrite Ep. set (nocc := length (positions norb s)).
  assert (Ec : bs_count s = nocc) by (apply count_positions, Hs).
  assert (Hle : nocc <= norb).
  { pose proof (occ_virt_length norb s). unfold nocc. lia. }
  assert (Hg : dbg && negb (nocc <? norb) = false).
  { destruct dbg; auto. specialize (Hd eq_refl).
    destruct (Nat.ltb_spec nocc norb); [reflexivity|lia]. }
  rewrite Hg. destruct (Nat.ltb_spec norb nocc); [lia|].
  (* the positions of the complement start with the virtuals *)
  set (V := filter (fun i => negb (tb s i)) (seq 0 norb)).
  assert (Hsplit : positions W (bs_not W s) = V ++ seq norb (W - norb)).
  { unfold positions, V. replace W with (norb + (W - norb)) at 2 by lia.
    rewrite seq_app, filter_app. f_equal.
    - apply filter_ext_in. intros i Hi. apply in_seq in Hi. rewrite tb_not by auto.
      destruct (Nat.ltb_spec i W); [reflexivity|lia].
    - cbn [plus]. rewrite <- (filter_ext_in (fun _ => true)).
      + induction (seq norb (W - norb)) as [|a l IH]; cbn [filter]; congruence.
      + intros i Hi. apply in_seq in Hi. rewrite tb_not by auto.
        destruct (Nat.ltb_spec i W); [|lia]. rewrite Hs by lia. reflexivity. }
  assert (HV : length V = norb - nocc).
  { pose proof (occ_virt_length norb s). unfold nocc, V. unfold virt in H0. lia. }
  rewrite indices_loop_prefix.
  - cbn [bind]. rewrite Hsplit. rewrite <- HV.
    rewrite firstn_app, Nat.sub_diag, firstn_all. cbn [firstn]. rewrite app_nil_r. reflexivity.
  - apply wf_not; auto.
  - rewrite Hsplit, app_length. lia.
Qed.

Lemma mapM_at W s l : (forall i, In i l -> i < W) ->
  mapM (bs_at W s) l = Ok (map (tb s) l).
Proof.
  intros H. apply mapM_ok. intros i Hi. unfold bs_at.
  destruct (Nat.ltb_spec i W); [reflexivity|]. specialize (H _ Hi). lia.
Qed.

Lemma filter_combine_fst (f : bool -> bool) (g : nat -> bool) (l : list nat) :
  map fst (filter (fun q => f (snd q)) (combine l (map g l))) = filter (fun i => f (g i)) l.
Proof.
  induction l as [|a l IH]; cbn [map combine filter snd fst]; [reflexivity|].
  destruct (f (g a)); cbn [map fst]; congruence.
Qed.

Lemma occ_vir_as_ok dbg W norb s l :
  (forall i, In i l -> i < W) ->
  (dbg = true -> length (filter (tb s) l) <= norb) ->
  bitset_to_occ_vir_as dbg W norb s l =
    Ok (filter (tb s) l, filter (fun i => negb (tb s i)) l).
Proof.
  intros Hl Hd. unfold bitset_to_occ_vir_as. rewrite mapM_at by auto. cbn [bind].
  assert (E : map fst (filter snd (combine l (map (tb s) l))) = filter (tb s) l)
    by exact (filter_combine_fst (fun b => b) (tb s) l).
  rewrite E.
  rewrite (filter_combine_fst negb).
  destruct (Nat.leb_spec (length (filter (tb s) l)) norb).
  - cbn [negb]. rewrite andb_false_r. reflexivity.
  - destruct dbg; [specialize (Hd eq_refl); lia|]. reflexivity.
Qed.

(** ** excitations *)

Lemma excite_ok W s l : (forall i, In i l -> i < W) ->
  excite W s l = Ok (fold_left flipb l s).
Proof.
  unfold excite. revert s. induction l as [|i l IH]; intros s H; [reflexivity|].
  cbn [fold_left]. cbn [bind]. unfold bs_flip at 2.
  destruct (Nat.ltb_spec i W); [|specialize (H i (or_introl eq_refl)); lia].
  cbn [bind]. apply IH. intros j Hj. apply H. right; exact Hj.
Qed.

Definition flip2 (s : N) (p : nat * nat) : N := flipb (flipb s (fst p)) (snd p).
Definition flip4 (s : N) (q : nat * nat * nat * nat) : N :=
  let '(i, a, j, b) := q in flipb (flipb (flipb (flipb s i) a) j) b.

Lemma single_pairs_In occ vir i a :
  In (i, a) (single_pairs occ vir) <-> In i occ /\ In a vir.
Proof.
  unfold single_pairs. rewrite in_flat_map. split.
  - intros (x & Hx & H). apply in_map_iff in H. destruct H as (y & E & Hy).
    injection E as -> ->. auto.
  - intros [Hi Ha]. exists a. split; auto. apply in_map_iff. eauto.
Qed.

Lemma double_quads_In occ vir i a j b :
  StronglySorted lt occ -> StronglySorted lt vir ->
  In (i, a, j, b) (double_quads occ vir) <->
  (In i occ /\ In j occ /\ i < j) /\ (In a vir /\ In b vir /\ a < b).
Proof.
  intros Ho Hv. unfold double_quads. rewrite in_flat_map. split.
  - intros ([a' ra] & Ha & H). apply in_flat_map in H.
    destruct H as ([i' ri] & Hi & H). apply in_flat_map in H.
    destruct H as (b' & Hb & H). apply in_map_iff in H. destruct H as (j' & E & Hj).
    cbn [fst snd] in *. injection E as -> -> -> ->. split.
    + apply (sorted_pairs_In occ); eauto.
    + apply (sorted_pairs_In vir); eauto.
  - intros [Hij Hab]. apply (sorted_pairs_In occ) in Hij; auto.
    apply (sorted_pairs_In vir) in Hab; auto.
    destruct Hij as (ri & Hi & Hj). destruct Hab as (ra & Ha & Hb).
    exists (a, ra). split; auto. apply in_flat_map. exists (i, ri). split; auto.
    apply in_flat_map. exists b. split; auto. apply in_map_iff. exists j. auto.
Qed.

Lemma single_pairs_NoDup occ vir : NoDup occ -> NoDup vir -> NoDup (single_pairs occ vir).
Proof.
  intros Ho Hv. apply NoDup_flat_map; auto.
  - intros a _. apply NoDup_map_inj; auto. intros x y _ _ E. congruence.
  - intros a b x _ _ H1 H2. apply in_map_iff in H1, H2.
    destruct H1 as (? & <- & _), H2 as (? & E & _). congruence.
Qed.

Lemma single_pairs_length occ vir :
  length (single_pairs occ vir) = length vir * length occ.
Proof.
  apply flat_map_length_const. intros. apply map_length.
Qed.

Lemma double_quads_NoDup occ vir :
  StronglySorted lt occ -> StronglySorted lt vir -> NoDup (double_quads occ vir).
Proof.
  intros Ho Hv. pose proof (sorted_NoDup _ Ho) as No. pose proof (sorted_NoDup _ Hv) as Nv.
  unfold double_quads. apply NoDup_flat_map; [apply tails_NoDup; auto| |].
  - intros [a ra] Ha. destruct (sorted_tails_In _ Hv _ _ Ha) as (_ & Hra & _).
    apply NoDup_flat_map; [apply tails_NoDup; auto| |].
    + intros [i ri] Hi. destruct (sorted_tails_In _ Ho _ _ Hi) as (_ & Hri & _).
      apply NoDup_flat_map; [apply sorted_NoDup; auto| |].
      * intros b _. apply NoDup_map_inj; [|apply sorted_NoDup; auto].
        intros x y _ _ E. congruence.
      * intros b c x _ _ H1 H2. apply in_map_iff in H1, H2. cbn [fst snd] in *.
        destruct H1 as (? & <- & _), H2 as (? & E & _). congruence.
    + intros [i ri] [i' ri'] x Hi Hi' H1 H2. apply in_flat_map in H1, H2.
      destruct H1 as (? & _ & H1), H2 as (? & _ & H2). apply in_map_iff in H1, H2.
      destruct H1 as (? & <- & _), H2 as (? & E & _). cbn [fst snd] in *.
      assert (i = i') by congruence. subst i'. f_equal.
      clear - No Hi Hi'. induction occ as [|o occ IH]; cbn [tails In] in *; [tauto|].
      inversion No; subst.
      assert (F : forall r, In (i, r) (tails occ) -> In i occ).
      { intros r Hr. rewrite <- (tails_fst occ). apply (in_map fst) in Hr. exact Hr. }
      destruct Hi as [E|Hi], Hi' as [E'|Hi'].
      * congruence.
      * injection E as -> ->. apply F in Hi'. tauto.
      * injection E' as -> ->. apply F in Hi. tauto.
      * auto.
  - intros [a ra] [a' ra'] x Ha Ha' H1 H2. apply in_flat_map in H1, H2.
    destruct H1 as (? & _ & H1), H2 as (? & _ & H2). apply in_flat_map in H1, H2.
    destruct H1 as (? & _ & H1), H2 as (? & _ & H2). apply in_map_iff in H1, H2.
    destruct H1 as (? & <- & _), H2 as (? & E & _). cbn [fst snd] in *.
    assert (a = a') by congruence. subst a'. f_equal.
    clear - Nv Ha Ha'. induction vir as [|o vir IH]; cbn [tails In] in *; [tauto|].
    inversion Nv; subst.
    assert (F : forall r, In (a, r) (tails vir) -> In a vir).
    { intros r Hr. rewrite <- (tails_fst vir). apply (in_map fst) in Hr. exact Hr. }
    destruct Ha as [E|Ha], Ha' as [E'|Ha'].
    + congruence.
    + injection E as -> ->. apply F in Ha'. tauto.
    + injection E' as -> ->. apply F in Ha. tauto.
    + auto.
Qed.

Lemma binom_0 n : binom n 0 = 1. Proof. destruct n; reflexivity. Qed.
Lemma binom_1 n : binom n 1 = n.
Proof. induction n as [|n IH]; cbn [binom]; auto. rewrite binom_0, IH. lia. Qed.
Lemma binom_2_S n : binom (S n) 2 = n + binom n 2.
Proof. cbn [binom]. rewrite binom_1. lia. Qed.

Lemma pairs_count {A} (l : list A) :
  list_sum (map (fun ir => length (snd ir)) (tails l)) = binom (length l) 2.
Proof.
  induction l as [|a l IH]; cbn [tails map snd length]; [reflexivity|].
  rewrite binom_2_S. cbn [list_sum fold_right]. unfold list_sum in IH. rewrite IH. lia.
Qed.

Lemma flat_map_length_sum {A B} (f : A -> list B) l :
  length (flat_map f l) = list_sum (map (fun a => length (f a)) l).
Proof.
  induction l as [|a l IH]; cbn [flat_map map length]; [reflexivity|].
  rewrite app_length, IH. reflexivity.
Qed.

Lemma list_sum_mul {A} (f : A -> nat) c l :
  list_sum (map (fun a => c * f a) l) = c * list_sum (map f l).
Proof.
  induction l as [|a l IH]; cbn [map list_sum fold_right]; [lia|].
  unfold list_sum in *. rewrite IH. lia.
Qed.

Lemma list_sum_mul_r {A} (f : A -> nat) c l :
  list_sum (map (fun a => f a * c) l) = list_sum (map f l) * c.
Proof.
  induction l as [|a l IH]; cbn [map list_sum fold_right]; [lia|].
  unfold list_sum in *. rewrite IH. lia.
Qed.

Lemma double_quads_length occ vir :
  length (double_quads occ vir) = binom (length vir) 2 * binom (length occ) 2.
Proof.
  unfold double_quads. rewrite flat_map_length_sum.
  rewrite (map_ext _ (fun av => length (snd av) * binom (length occ) 2)).
  - rewrite list_sum_mul_r, pairs_count. reflexivity.
  - intros [a ra]. cbn [snd fst]. rewrite flat_map_length_sum.
    rewrite (map_ext _ (fun io : nat * list nat => length ra * length (snd io))).
    + rewrite list_sum_mul, pairs_count. reflexivity.
    + intros [i ri]. cbn [snd fst]. rewrite (flat_map_length_const _ _ (length ri)); [lia|].
      intros. apply map_length.
Qed.

(** [flip2]/[flip4] against [moves] *)

Lemma moves_1 s t : moves 1 s t <->
  exists i a, tb s i = true /\ tb s a = false /\ t = flip2 s (i, a).
Proof.
  unfold moves. split.
  - intros [H1 H2]. apply size_is_1 in H1, H2. destruct H1 as [i Hi], H2 as [a Ha].
    assert (Xi := Hi i). assert (Xa := Ha a). rewrite Nat.eqb_refl, tb_ldiff in Xi, Xa.
    apply andb_prop in Xi, Xa. destruct Xi as [Xi Yi], Xa as [Xa Ya].
    exists i, a. split; auto. split.
    + apply negb_true_iff, Ya.
    + apply tb_ext. intros k. unfold flip2. cbn [fst snd]. rewrite !tb_flip.
      specialize (Hi k). specialize (Ha k). rewrite tb_ldiff in Hi, Ha.
      rewrite <- Hi, <- Ha. destruct (tb s k), (tb t k); reflexivity.
  - intros (i & a & Hi & Ha & ->). unfold flip2. cbn [fst snd].
    assert (i <> a) by congruence. split; apply size_is_1.
    + exists i. intros k. rewrite tb_ldiff, !tb_flip.
      destruct (Nat.eqb_spec k i), (Nat.eqb_spec k a); subst; try lia;
      rewrite ?Hi, ?Ha; try reflexivity. destruct (tb s k); reflexivity.
    + exists a. intros k. rewrite tb_ldiff, !tb_flip.
      destruct (Nat.eqb_spec k i), (Nat.eqb_spec k a); subst; try lia;
      rewrite ?Hi, ?Ha; try reflexivity. destruct (tb s k); reflexivity.
Qed.

Lemma moves_2 s t : moves 2 s t <->
  exists i a j b, (tb s i = true /\ tb s j = true /\ i < j) /\
                  (tb s a = false /\ tb s b = false /\ a < b) /\ t = flip4 s (i, a, j, b).
Proof.
  unfold moves. split.
  - intros [H1 H2]. apply size_is_2 in H1, H2.
    destruct H1 as (i & j & Hij & Hi), H2 as (a & b & Hab & Ha).
    assert (Xi := Hi i). assert (Xj := Hi j). assert (Xa := Ha a). assert (Xb := Ha b).
    rewrite Nat.eqb_refl, tb_ldiff in Xi, Xj, Xa, Xb. rewrite orb_true_r in Xj, Xb.
    cbn [orb] in *.
    apply andb_prop in Xi, Xa, Xj, Xb. destruct Xi, Xa, Xj, Xb.
    exists i, a, j, b. repeat split; auto using negb_true_iff; try (apply negb_true_iff; assumption).
    apply tb_ext. intros k. unfold flip4. rewrite !tb_flip.
    specialize (Hi k). specialize (Ha k). rewrite tb_ldiff in Hi, Ha.
    destruct (tb s k) eqn:Es, (tb t k) eqn:Et, (k =? i) eqn:E1, (k =? j) eqn:E2,
      (k =? a) eqn:E3, (k =? b) eqn:E4; try discriminate; try reflexivity;
      apply Nat.eqb_eq in E1 || apply Nat.eqb_eq in E3; 
      apply Nat.eqb_eq in E2 || apply Nat.eqb_eq in E4; lia.
  - intros (i & a & j & b & (Hi & Hj & Hij) & (Ha & Hb & Hab) & ->). unfold flip4.
    assert (i <> a) by congruence. assert (i <> b) by congruence.
    assert (j <> a) by congruence. assert (j <> b) by congruence.
    split; apply size_is_2.
    + exists i, j. split; auto. intros k. rewrite tb_ldiff, !tb_flip.
      destruct (Nat.eqb_spec k i), (Nat.eqb_spec k a), (Nat.eqb_spec k j), (Nat.eqb_spec k b);
      subst; try lia; rewrite ?Hi, ?Ha, ?Hj, ?Hb; try reflexivity. destruct (tb s k); reflexivity.
    + exists a, b. split; auto. intros k. rewrite tb_ldiff, !tb_flip.
      destruct (Nat.eqb_spec k i), (Nat.eqb_spec k a), (Nat.eqb_spec k j), (Nat.eqb_spec k b);
      subst; try lia; rewrite ?Hi, ?Ha, ?Hj, ?Hb; try reflexivity. destruct (tb s k); reflexivity.
Qed.

Lemma moves_0 s t : moves 0 s t <-> s = t.
Proof.
  unfold moves. rewrite !size_is_0. split.
  - intros [H1 H2]. apply tb_ext. intros k.
    assert (A : tb (N.ldiff s t) k = false) by (rewrite H1; apply tb_0).
    assert (B : tb (N.ldiff t s) k = false) by (rewrite H2; apply tb_0).
    rewrite tb_ldiff in A, B. destruct (tb s k), (tb t k); auto; discriminate.
  - intros ->. rewrite N.ldiff_diag. auto.
Qed.

Lemma moves_fun k k' s t : moves k s t -> moves k' s t -> k = k'.
Proof. intros [H _] [H' _]. eapply size_is_fun; eauto. Qed.

Lemma flip2_inj s i a i' a' :
  tb s i = true -> tb s i' = true -> tb s a = false -> tb s a' = false ->
  flip2 s (i, a) = flip2 s (i', a') -> i = i' /\ a = a'.
Proof.
  intros Hi Hi' Ha Ha' E. unfold flip2 in E. cbn [fst snd] in E.
  assert (i <> a) by congruence. assert (i <> a') by congruence.
  assert (i' <> a) by congruence.
  split.
  - assert (X : tb (flipb (flipb s i) a) i = tb (flipb (flipb s i') a') i) by congruence.
    rewrite !tb_flip, Nat.eqb_refl, Hi in X.
    destruct (Nat.eqb_spec i a), (Nat.eqb_spec i i'), (Nat.eqb_spec i a'); try lia; discriminate.
  - assert (X : tb (flipb (flipb s i) a) a = tb (flipb (flipb s i') a') a) by congruence.
    rewrite !tb_flip, Nat.eqb_refl, Ha in X.
    destruct (Nat.eqb_spec a i), (Nat.eqb_spec a i'), (Nat.eqb_spec a a'); try lia; discriminate.
Qed.

(** recover the quadruple: the occupied part and the virtual part *)
Lemma flip4_occ s i a j b k :
  tb s i = true -> tb s j = true -> i <> j -> tb s a = false -> tb s b = false ->
  tb s k && negb (tb (flip4 s (i, a, j, b)) k) = (k =? i) || (k =? j).
Proof.
  intros Hi Hj Hij Ha Hb. assert (i <> a) by congruence. assert (i <> b) by congruence.
  assert (j <> a) by congruence. assert (j <> b) by congruence.
  unfold flip4. rewrite !tb_flip.
  destruct (Nat.eqb_spec k i), (Nat.eqb_spec k a), (Nat.eqb_spec k j), (Nat.eqb_spec k b);
  subst; try lia; rewrite ?Hi, ?Ha, ?Hj, ?Hb; try reflexivity; destruct (tb s k); reflexivity.
Qed.
Lemma flip4_vir s i a j b k :
  tb s i = true -> tb s j = true -> tb s a = false -> tb s b = false -> a <> b ->
  negb (tb s k) && tb (flip4 s (i, a, j, b)) k = (k =? a) || (k =? b).
Proof.
  intros Hi Hj Ha Hb Hab. assert (i <> a) by congruence. assert (i <> b) by congruence.
  assert (j <> a) by congruence. assert (j <> b) by congruence.
  unfold flip4. rewrite !tb_flip.
  destruct (Nat.eqb_spec k i), (Nat.eqb_spec k a), (Nat.eqb_spec k j), (Nat.eqb_spec k b);
  subst; try lia; rewrite ?Hi, ?Ha, ?Hj, ?Hb; try reflexivity; destruct (tb s k); reflexivity.
Qed.

Lemma pair_set_eq i j i' j' : i < j -> i' < j' ->
  (forall k, (k =? i) || (k =? j) = (k =? i') || (k =? j')) -> i = i' /\ j = j'.
Proof.
  intros H H' E. assert (E1 := E i). assert (E2 := E j). assert (E3 := E i'). assert (E4 := E j').
  rewrite !Nat.eqb_refl, ?orb_true_r in *. cbn [orb] in *.
  destruct (Nat.eqb_spec i i'), (Nat.eqb_spec i j'), (Nat.eqb_spec j i'), (Nat.eqb_spec j j'),
   (Nat.eqb_spec i' i), (Nat.eqb_spec i' j), (Nat.eqb_spec j' i), (Nat.eqb_spec j' j);
   cbn [orb] in *; try discriminate; lia.
Qed.

Lemma flip4_inj s i a j b i' a' j' b' :
  tb s i = true -> tb s j = true -> i < j -> tb s a = false -> tb s b = false -> a < b ->
  tb s i' = true -> tb s j' = true -> i' < j' -> tb s a' = false -> tb s b' = false -> a' < b' ->
  flip4 s (i, a, j, b) = flip4 s (i', a', j', b') -> (i, a, j, b) = (i', a', j', b').
Proof.
  intros Hi Hj Hij Ha Hb Hab Hi' Hj' Hij' Ha' Hb' Hab' E.
  assert (O : i = i' /\ j = j').
  { apply pair_set_eq; auto. intros k.
    rewrite <- (flip4_occ s i a j b k), <- (flip4_occ s i' a' j' b' k) by (auto; lia).
    rewrite E. reflexivity. }
  assert (V : a = a' /\ b = b').
  { apply pair_set_eq; auto. intros k.
    rewrite <- (flip4_vir s i a j b k), <- (flip4_vir s i' a' j' b' k) by (auto; lia).
    rewrite E. reflexivity. }
  destruct O, V. congruence.
Qed.

(** the pure versions of the generators *)
Definition singles_of (s : N) (occ vir : list nat) := map (flip2 s) (single_pairs occ vir).
Definition doubles_of (s : N) (occ vir : list nat) := map (flip4 s) (double_quads occ vir).

Lemma append_singles_ok W s occ vir :
  (forall i, In i occ -> i < W) -> (forall i, In i vir -> i < W) ->
  append_singles W s occ vir = Ok (singles_of s occ vir).
Proof.
  intros Ho Hv. unfold append_singles, singles_of. apply mapM_ok.
  intros [i a] H. apply single_pairs_In in H. rewrite excite_ok; [reflexivity|].
  cbn [fst snd In]. intros k [<-|[<-|[]]]; [apply Ho|apply Hv]; tauto.
Qed.

Lemma double_quads_In_weak occ vir i a j b :
  In (i, a, j, b) (double_quads occ vir) -> In i occ /\ In j occ /\ In a vir /\ In b vir.
Proof.
  assert (T : forall l x r y, In (x, r) (tails l) -> In (y:nat) r -> In (x:nat) l /\ In y l).
  { induction l as [|z l IH]; cbn [tails In]; [tauto|]. intros x r y [E|H] Hy.
    - injection E as -> ->. auto.
    - destruct (IH _ _ _ H Hy). auto. }
  unfold double_quads. rewrite in_flat_map. intros ([a' ra] & Ha & H).
  apply in_flat_map in H. destruct H as ([i' ri] & Hi & H). apply in_flat_map in H.
  destruct H as (b' & Hb & H). apply in_map_iff in H. destruct H as (j' & E & Hj).
  cbn [fst snd] in *. injection E as -> -> -> ->.
  destruct (T _ _ _ _ Hi Hj), (T _ _ _ _ Ha Hb). auto.
Qed.

Lemma append_doubles_ok W s occ vir :
  (forall i, In i occ -> i < W) -> (forall i, In i vir -> i < W) ->
  append_doubles W s occ vir = Ok (doubles_of s occ vir).
Proof.
  intros Ho Hv. unfold append_doubles, doubles_of. apply mapM_ok.
  intros [[[i a] j] b] H. apply double_quads_In_weak in H.
  rewrite excite_ok; [reflexivity|].
  cbn [In]. intros k [<-|[<-|[<-|[<-|[]]]]]; ((apply Ho; tauto) || (apply Hv; tauto)).
Qed.

(** spinless singles / doubles over arbitrary occupied/virtual sublists *)
Lemma singles_of_In s occ vir t :
  In t (singles_of s occ vir) <-> exists i a, In i occ /\ In a vir /\ t = flip2 s (i, a).
Proof.
  unfold singles_of. rewrite in_map_iff. split.
  - intros ([i a] & <- & H). apply single_pairs_In in H. exists i, a. tauto.
  - intros (i & a & Hi & Ha & ->). exists (i, a). split; auto. apply single_pairs_In. auto.
Qed.

Lemma singles_of_NoDup s occ vir :
  NoDup occ -> NoDup vir ->
  (forall i, In i occ -> tb s i = true) -> (forall a, In a vir -> tb s a = false) ->
  NoDup (singles_of s occ vir).
Proof.
  intros No Nv Ho Hv. apply NoDup_map_inj; [|apply single_pairs_NoDup; auto].
  intros [i a] [i' a'] H H' E. apply single_pairs_In in H, H'.
  apply flip2_inj in E; [|apply Ho; tauto|apply Ho; tauto|apply Hv; tauto|apply Hv; tauto].
  destruct E. congruence.
Qed.

Lemma doubles_of_In s occ vir t :
  StronglySorted lt occ -> StronglySorted lt vir ->
  In t (doubles_of s occ vir) <->
  exists i a j b, (In i occ /\ In j occ /\ i < j) /\ (In a vir /\ In b vir /\ a < b) /\
                  t = flip4 s (i, a, j, b).
Proof.
  intros So Sv. unfold doubles_of. rewrite in_map_iff. split.
  - intros ([[[i a] j] b] & <- & H). apply double_quads_In in H; auto. exists i, a, j, b. tauto.
  - intros (i & a & j & b & Ho & Hv & ->). exists (i, a, j, b). split; auto.
    apply double_quads_In; auto.
Qed.

Lemma doubles_of_NoDup s occ vir :
  StronglySorted lt occ -> StronglySorted lt vir ->
  (forall i, In i occ -> tb s i = true) -> (forall a, In a vir -> tb s a = false) ->
  NoDup (doubles_of s occ vir).
Proof.
  intros So Sv Ho Hv. apply NoDup_map_inj; [|apply double_quads_NoDup; auto].
  intros [[[i a] j] b] [[[i' a'] j'] b'] H H' E. apply double_quads_In in H, H'; auto.
  destruct H as ((? & ? & ?) & ? & ? & ?), H' as ((? & ? & ?) & ? & ? & ?).
  apply flip4_inj in E; auto.
Qed.

Lemma wf_flip2 norb s i a : wf norb s -> i < norb -> a < norb -> wf norb (flip2 s (i, a)).
Proof. intros. unfold flip2. cbn [fst snd]. auto using wf_flip. Qed.

Lemma singles_moves norb s t : wf norb s ->
  In t (singles_of s (positions norb s) (virt norb s)) <-> wf norb t /\ moves 1 s t.
Proof.
  intros Hs. rewrite singles_of_In, moves_1. split.
  - intros (i & a & Hi & Ha & ->). apply positions_In in Hi. apply virt_In in Ha.
    destruct Hi, Ha. split; [apply wf_flip2; auto|]. exists i, a. auto.
  - intros [Ht (i & a & Hi & Ha & ->)]. exists i, a.
    assert (Hia : i <> a) by congruence.
    rewrite positions_In', virt_In by auto. repeat split; auto.
    destruct (Nat.ltb_spec a norb); auto. exfalso.
    specialize (Ht a H). unfold flip2 in Ht. cbn [fst snd] in Ht.
    rewrite !tb_flip, Ha, Nat.eqb_refl in Ht.
    destruct (Nat.eqb_spec a i); [lia|discriminate].
Qed.

Lemma doubles_moves norb s t : wf norb s ->
  In t (doubles_of s (positions norb s) (virt norb s)) <-> wf norb t /\ moves 2 s t.
Proof.
  intros Hs. rewrite doubles_of_In, moves_2 by (apply positions_sorted || apply virt_sorted).
  split.
  - intros (i & a & j & b & (Hi & Hj & Hij) & (Ha & Hb & Hab) & ->).
    apply positions_In in Hi, Hj. apply virt_In in Ha, Hb. split.
    + unfold flip4. repeat apply wf_flip; auto; tauto.
    + exists i, a, j, b. intuition auto.
  - intros [Ht (i & a & j & b & (Hi & Hj & Hij) & (Ha & Hb & Hab) & ->)].
    exists i, a, j, b. rewrite !positions_In', !virt_In by auto. repeat split; auto.
    + destruct (Nat.ltb_spec a norb); auto. exfalso.
      pose proof (flip4_vir s i a j b a Hi Hj Ha Hb ltac:(lia)) as X.
      rewrite Ht, Nat.eqb_refl, andb_false_r in X by lia. discriminate.
    + destruct (Nat.ltb_spec b norb); auto. exfalso.
      pose proof (flip4_vir s i a j b b Hi Hj Ha Hb ltac:(lia)) as X.
      rewrite Ht, Nat.eqb_refl, andb_false_r, orb_true_r in X by lia. discriminate.
Qed.

Lemma occ_lt norb s i : In i (positions norb s) -> i < norb.
Proof. rewrite positions_In. tauto. Qed.
Lemma virt_lt norb s i : In i (virt norb s) -> i < norb.
Proof. rewrite virt_In. tauto. Qed.

Lemma generate_singles_doubles_ok dbg W norb s :
  norb <= W -> wf norb s -> (dbg = true -> bs_count s < norb) ->
  generate_singles_doubles dbg W norb s =
  Ok (singles_of s (positions norb s) (virt norb s),
      doubles_of s (positions norb s) (virt norb s)).
Proof.
  intros HW Hs Hd. unfold generate_singles_doubles. rewrite occ_vir_ok by auto.
  cbn [bind fst snd]. fold (virt norb s).
  assert (Ho : forall i, In i (positions norb s) -> i < W) by (intros i Hi; apply occ_lt in Hi; lia).
  assert (Hv : forall i, In i (virt norb s) -> i < W) by (intros i Hi; apply virt_lt in Hi; lia).
  rewrite append_singles_ok, append_doubles_ok by auto. reflexivity.
Qed.

Lemma generate_singles_ok dbg W norb s :
  norb <= W -> wf norb s -> (dbg = true -> bs_count s < norb) ->
  generate_singles dbg W norb s = Ok (singles_of s (positions norb s) (virt norb s)).
Proof.
  intros HW Hs Hd. unfold generate_singles. rewrite occ_vir_ok by auto.
  cbn [bind fst snd]. fold (virt norb s).
  assert (Ho : forall i, In i (positions norb s) -> i < W) by (intros i Hi; apply occ_lt in Hi; lia).
  assert (Hv : forall i, In i (virt norb s) -> i < W) by (intros i Hi; apply virt_lt in Hi; lia).
  rewrite append_singles_ok by auto. reflexivity.
Qed.

Lemma generate_doubles_ok dbg W norb s :
  norb <= W -> wf norb s -> (dbg = true -> bs_count s < norb) ->
  generate_doubles dbg W norb s = Ok (doubles_of s (positions norb s) (virt norb s)).
Proof.
  intros HW Hs Hd. unfold generate_doubles. rewrite occ_vir_ok by auto.
  cbn [bind fst snd]. fold (virt norb s).
  assert (Ho : forall i, In i (positions norb s) -> i < W) by (intros i Hi; apply occ_lt in Hi; lia).
  assert (Hv : forall i, In i (virt norb s) -> i < W) by (intros i Hi; apply virt_lt in Hi; lia).
  rewrite append_doubles_ok by auto. reflexivity.
Qed.

(** Proofs about the bit-string model. *)
From Coq Require Import Sorting.Permutation Sorting.Sorted.
From Verif Require Import Base Bits.

(** ** bit-level facts of the primitives *)

Lemma tb_not W x i : wf W x -> tb (bs_not W x) i = (i <? W) && negb (tb x i).
Proof.
  intros Hx. unfold bs_not. rewrite tb_xor, tb_ones.
  destruct (Nat.ltb_spec i W); simpl; [reflexivity|].
  rewrite Hx by lia. reflexivity.
Qed.

Lemma tb_bs_shl W x k i :
  tb (bs_shl W x k) i = (i <? W) && ((k <=? i) && tb x (i - k)).
Proof.
  unfold bs_shl. rewrite tb_and, tb_shl, tb_ones. apply andb_comm.
Qed.

Lemma tb_bs_shr x k i : tb (bs_shr x k) i = tb x (i + k).
Proof. apply tb_shr. Qed.

Lemma tb_flip x k i : tb (flipb x k) i = xorb (tb x i) (i =? k).
Proof. unfold flipb. rewrite tb_xor, tb_bit. reflexivity. Qed.

Lemma tb_flip_same x k : tb (flipb x k) k = negb (tb x k).
Proof. rewrite tb_flip, Nat.eqb_refl. destruct (tb x k); reflexivity. Qed.

Lemma tb_flip_other x k i : i <> k -> tb (flipb x k) i = tb x i.
Proof.
  intros H. rewrite tb_flip. destruct (Nat.eqb_spec i k); [lia|].
  apply xorb_false_r.
Qed.

Lemma flip_flip x k : flipb (flipb x k) k = x.
Proof.
  apply tb_ext. intros i. rewrite !tb_flip.
  destruct (tb x i), (i =? k); reflexivity.
Qed.

Lemma flip_comm x j k : flipb (flipb x j) k = flipb (flipb x k) j.
Proof.
  apply tb_ext. intros i. rewrite !tb_flip.
  destruct (tb x i), (i =? k), (i =? j); reflexivity.
Qed.

Lemma wf_flip W x k : wf W x -> k < W -> wf W (flipb x k).
Proof.
  intros H Hk i Hi. rewrite tb_flip_other by lia. apply H, Hi.
Qed.

Lemma wf_not W x : wf W x -> wf W (bs_not W x).
Proof.
  intros H i Hi. rewrite tb_not by exact H.
  destruct (Nat.ltb_spec i W); [lia|reflexivity].
Qed.

Lemma wf_bs_shl W x k : wf W (bs_shl W x k).
Proof.
  intros i Hi. rewrite tb_bs_shl. destruct (Nat.ltb_spec i W); [lia|reflexivity].
Qed.

Lemma wf_le W W' x : W <= W' -> wf W x -> wf W' x.
Proof. intros H Hx i Hi. apply Hx. lia. Qed.

Lemma wf_and W x y : wf W x -> wf W (N.land x y).
Proof. intros H i Hi. rewrite tb_and, H by lia. reflexivity. Qed.
Lemma wf_or W x y : wf W x -> wf W y -> wf W (N.lor x y).
Proof. intros H H' i Hi. rewrite tb_or, H, H' by lia. reflexivity. Qed.
Lemma wf_xor W x y : wf W x -> wf W y -> wf W (N.lxor x y).
Proof. intros H H' i Hi. rewrite tb_xor, H, H' by lia. reflexivity. Qed.

Lemma wf_mod W x : wf W (x mod 2 ^ N.of_nat W)%N.
Proof. intros i Hi. rewrite tb_mod. destruct (Nat.ltb_spec i W); [lia|reflexivity]. Qed.

(** ** words *)

Lemma tb_word64 x k i : tb (word64 x k) i = (i <? 64) && tb x (i + 64 * k).
Proof.
  unfold word64. change (2 ^ 64)%N with (2 ^ N.of_nat 64)%N.
  rewrite tb_mod.
  replace (64 * N.of_nat k)%N with (N.of_nat (64 * k)) by lia.
  rewrite tb_div. reflexivity.
Qed.

Lemma tb_word32 x k i : tb (word32 x k) i = (i <? 32) && tb x (i + 32 * k).
Proof.
  unfold word32. change (2 ^ 32)%N with (2 ^ N.of_nat 32)%N.
  rewrite tb_mod.
  replace (32 * N.of_nat k)%N with (N.of_nat (32 * k)) by lia.
  rewrite tb_div. reflexivity.
Qed.

Lemma wf_word64 x k : wf 64 (word64 x k).
Proof. intros i Hi. rewrite tb_word64. destruct (Nat.ltb_spec i 64); [lia|reflexivity]. Qed.
Lemma wf_word32 x k : wf 32 (word32 x k).
Proof. intros i Hi. rewrite tb_word32. destruct (Nat.ltb_spec i 32); [lia|reflexivity]. Qed.

Lemma word64_0 x : wf 64 x -> word64 x 0 = x.
Proof.
  intros H. apply tb_ext. intros i. rewrite tb_word64.
  destruct (Nat.ltb_spec i 64); simpl; [f_equal; lia|]. symmetry; apply H; lia.
Qed.
Lemma word32_0 x : wf 32 x -> word32 x 0 = x.
Proof.
  intros H. apply tb_ext. intros i. rewrite tb_word32.
  destruct (Nat.ltb_spec i 32); simpl; [f_equal; lia|]. symmetry; apply H; lia.
Qed.

Lemma to_u64_ok x : wf 64 x -> bs_to_u64 x = Ok x.
Proof.
  intros H. apply wf_lt in H. unfold bs_to_u64.
  destruct (N.ltb_spec x (2 ^ 64)); [reflexivity|].
  exfalso. change (N.of_nat 64) with 64%N in H. lia.
Qed.

Lemma fast_to_ulong_ok W x : W <= 32 -> wf W x -> fast_to_ulong W x = Ok x.
Proof.
  intros HW Hx. unfold fast_to_ulong.
  destruct (Nat.eqb_spec W 32); simpl.
  - subst. rewrite word32_0; auto.
  - destruct (Nat.eqb_spec W 64); [lia|]. destruct (Nat.eqb_spec W 128); [lia|].
    simpl. apply to_u64_ok. eapply wf_le; [|exact Hx]. lia.
Qed.

Lemma fast_to_ullong_ok W x : W <= 64 -> wf W x -> fast_to_ullong W x = Ok x.
Proof.
  intros HW Hx. unfold fast_to_ullong.
  destruct (Nat.eqb_spec W 64); simpl.
  - subst. rewrite word64_0; auto.
  - destruct (Nat.eqb_spec W 128); [lia|]. simpl.
    destruct (Nat.eqb_spec W 32).
    + subst. rewrite word32_0; auto.
    + apply to_u64_ok. eapply wf_le; [|exact Hx]. lia.
Qed.

(** ** ffs *)

Lemma ffs_pos_S p : exists i, ffs_pos p = S i.
Proof. destruct p; simpl; eauto. Qed.

Lemma tb_xO_S p i : tb (N.pos p~0) (S i) = tb (N.pos p) i.
Proof.
  unfold tb. rewrite Nat2N.inj_succ.
  change (N.pos p~0) with (N.double (N.pos p)).
  rewrite N.double_spec. apply N.testbit_even_succ. lia.
Qed.
Lemma tb_xI_S p i : tb (N.pos p~1) (S i) = tb (N.pos p) i.
Proof.
  unfold tb. rewrite Nat2N.inj_succ.
  change (N.pos p~1) with (N.succ_double (N.pos p)).
  rewrite N.succ_double_spec. apply N.testbit_odd_succ. lia.
Qed.
Lemma tb_1_S i : tb 1 (S i) = false.
Proof. unfold tb. rewrite Nat2N.inj_succ. apply (N.bits_above_log2 1). simpl. lia. Qed.

Lemma ffs_pos_spec p i :
  ffs_pos p = S i -> tb (Npos p) i = true /\ forall j, j < i -> tb (Npos p) j = false.
Proof.
  revert i. induction p as [p IH|p IH|]; intros i H; cbn [ffs_pos] in H.
  - injection H as <-. split; [reflexivity|intros; lia].
  - injection H as H. destruct i as [|i].
    + destruct (ffs_pos_S p); congruence.
    + apply IH in H. destruct H as [H1 H2]. split.
      * rewrite tb_xO_S. exact H1.
      * intros [|j] Hj; [reflexivity|]. rewrite tb_xO_S. apply H2. lia.
  - injection H as <-. split; [reflexivity|intros; lia].
Qed.

Lemma ffs_word_spec x i :
  ffs_word x = S i <-> tb x i = true /\ forall j, j < i -> tb x j = false.
Proof.
  split.
  - destruct x as [|p]; [discriminate|]. apply ffs_pos_spec.
  - intros [H1 H2]. destruct x as [|p]; [rewrite tb_0 in H1; discriminate|].
    cbn [ffs_word]. destruct (ffs_pos_S p) as [k Hk]. rewrite Hk.
    apply ffs_pos_spec in Hk. destruct Hk as [K1 K2]. f_equal.
    destruct (lt_eq_lt_dec k i) as [[Hlt|Heq]|Hlt]; auto.
    + rewrite H2 in K1 by lia. discriminate.
    + rewrite K2 in H1 by lia. discriminate.
Qed.

Lemma ffs_word_0 x : ffs_word x = 0 <-> x = 0%N.
Proof.
  destruct x as [|p]; simpl; [tauto|]. destruct (ffs_pos_S p) as [i ->].
  split; discriminate.
Qed.

Lemma ffs_scan_spec x i : forall fuel s,
  s <= i < s + fuel -> tb x i = true -> (forall j, s <= j < i -> tb x j = false) ->
  ffs_scan x s fuel = S i.
Proof.
  induction fuel as [|f IH]; intros s Hs Hi Hlt; [lia|]. cbn [ffs_scan].
  destruct (tb x s) eqn:E.
  - destruct (Nat.eq_dec s i); [lia|]. rewrite Hlt in E by lia. discriminate.
  - apply IH; auto.
    + destruct (Nat.eq_dec s i); [subst; congruence|lia].
    + intros j Hj. apply Hlt. lia.
Qed.

(** [low x i]: [i] is the least set bit of [x]. *)
Definition low (x : N) (i : nat) : Prop :=
  tb x i = true /\ forall j, j < i -> tb x j = false.

Lemma ffs_low W x i : wf W x -> low x i -> ffs W x = Ok (S i).
Proof.
  intros Hx [H1 H2]. unfold ffs.
  assert (Hi : i < W).
  { destruct (Nat.ltb_spec i W); auto. rewrite Hx in H1 by lia. discriminate. }
  destruct (Nat.leb_spec W 32).
  { rewrite fast_to_ulong_ok by auto. simpl. f_equal. apply ffs_word_spec. auto. }
  destruct (Nat.leb_spec W 64).
  { rewrite fast_to_ullong_ok by auto. simpl. f_equal. apply ffs_word_spec. auto. }
  destruct (Nat.leb_spec W 128).
  { destruct (N.eqb_spec (word64 x 0) 0) as [E|E]; cbn [negb].
    - f_equal.
      assert (Hi64 : 64 <= i).
      { destruct (Nat.leb_spec 64 i); auto.
        assert (T : tb (word64 x 0) i = true).
        { rewrite tb_word64. destruct (Nat.ltb_spec i 64); [|lia].
          cbn [andb]. rewrite <- H1. f_equal. lia. }
        rewrite E, tb_0 in T. discriminate. }
      replace (S i) with (S (i - 64) + 64) by lia. f_equal.
      apply ffs_word_spec. split.
      + rewrite tb_word64. destruct (Nat.ltb_spec (i - 64) 64); [|lia].
        cbn [andb]. rewrite <- H1. f_equal. lia.
      + intros j Hj. rewrite tb_word64. destruct (Nat.ltb_spec j 64); [|lia].
        cbn [andb]. apply H2. lia.
    - f_equal. apply ffs_word_spec.
      assert (Hi64 : i < 64).
      { destruct (Nat.ltb_spec i 64); auto. exfalso. apply E.
        apply tb_ext. intros j. rewrite tb_0, tb_word64.
        destruct (Nat.ltb_spec j 64); auto. cbn [andb]. apply H2. lia. }
      split.
      + rewrite tb_word64. destruct (Nat.ltb_spec i 64); [|lia].
        cbn [andb]. rewrite <- H1. f_equal. lia.
      + intros j Hj. rewrite tb_word64. destruct (Nat.ltb_spec j 64); [|lia].
        cbn [andb]. apply H2. lia. }
  f_equal. apply ffs_scan_spec; auto; try lia. intros j Hj. apply H2. lia.
Qed.

Lemma low_exists W x : wf W x -> x <> 0%N -> exists i, i < W /\ low x i.
Proof.
  intros Hx Hn. destruct x as [|p]; [congruence|].
  destruct (ffs_pos_S p) as [i Hi]. exists i.
  pose proof (ffs_pos_spec _ _ Hi) as [H1 H2]. split; [|split; auto].
  destruct (Nat.ltb_spec i W); auto. rewrite Hx in H1 by lia. discriminate.
Qed.

Lemma ffs_m1_low e W x i : wf W x -> low x i -> ffs_m1 e W x = Ok i.
Proof.
  intros Hx Hl. unfold ffs_m1. rewrite (ffs_low _ _ _ Hx Hl). reflexivity.
Qed.

(** ffs on the empty string, per code path *)
Lemma ffs_empty W : ffs W 0 =
  Ok (if W <=? 64 then 0 else if W <=? 128 then 64 else W).
Proof.
  unfold ffs.
  destruct (Nat.leb_spec W 32).
  { rewrite fast_to_ulong_ok by (auto; apply wf_0).
    destruct (Nat.leb_spec W 64); [reflexivity|lia]. }
  destruct (Nat.leb_spec W 64).
  { rewrite fast_to_ullong_ok by (auto; apply wf_0). reflexivity. }
  destruct (Nat.leb_spec W 128); [reflexivity|].
  f_equal.
  assert (G : forall f s, ffs_scan 0 s f = s + f).
  { induction f as [|f IH]; intros s; cbn [ffs_scan]; [lia|].
    rewrite tb_0, IH. lia. }
  rewrite G. lia.
Qed.

(** ** fls *)

Lemma tb_log2 x : x <> 0%N -> tb x (N.to_nat (N.log2 x)) = true.
Proof. intros H. unfold tb. rewrite N2Nat.id. apply N.bit_log2, H. Qed.

Lemma tb_above_log2 x i : N.to_nat (N.log2 x) < i -> tb x i = false.
Proof. intros H. apply N.bits_above_log2. lia. Qed.

(** [high x i]: [i] is the greatest set bit of [x]. *)
Definition high (x : N) (i : nat) : Prop :=
  tb x i = true /\ forall j, i < j -> tb x j = false.

Lemma high_log2 x i : high x i -> i = N.to_nat (N.log2 x).
Proof.
  intros [H1 H2].
  assert (x <> 0%N) by (intros ->; rewrite tb_0 in H1; discriminate).
  destruct (lt_eq_lt_dec i (N.to_nat (N.log2 x))) as [[Hl|He]|Hl]; auto.
  - pose proof (tb_log2 x H) as T. rewrite H2 in T by auto. discriminate.
  - rewrite tb_above_log2 in H1 by auto. discriminate.
Qed.

Lemma fls_word_high w x i : wf w x -> high x i -> fls_word w x = Ok i.
Proof.
  intros Hx Hh. pose proof (high_log2 _ _ Hh) as Hi. destruct Hh as [H1 _].
  assert (x <> 0%N) by (intros ->; rewrite tb_0 in H1; discriminate).
  assert (i < w).
  { destruct (Nat.ltb_spec i w); auto. rewrite Hx in H1 by lia. discriminate. }
  unfold fls_word, clz. destruct (N.eqb_spec x 0); [congruence|]. cbn [bind].
  f_equal. lia.
Qed.

Lemma fls_scan_high x i n : i < n -> high x i -> fls_scan x n = Ok i.
Proof.
  intros Hi [H1 H2]. induction n as [|n IH]; [lia|]. cbn [fls_scan].
  destruct (tb x n) eqn:E.
  - destruct (Nat.eq_dec n i); [congruence|]. rewrite H2 in E by lia. discriminate.
  - apply IH. destruct (Nat.eq_dec n i); [subst; congruence|lia].
Qed.

Lemma fls_high W x i : wf W x -> high x i -> fls W x = Ok i.
Proof.
  intros Hx Hh. unfold fls.
  assert (Hi : i < W).
  { destruct Hh as [H1 _]. destruct (Nat.ltb_spec i W); auto.
    rewrite Hx in H1 by lia. discriminate. }
  destruct (Nat.leb_spec W 32).
  { rewrite fast_to_ulong_ok by auto. cbn [bind]. apply fls_word_high; auto.
    eapply wf_le; [|exact Hx]. lia. }
  destruct (Nat.leb_spec W 64).
  { rewrite fast_to_ullong_ok by auto. cbn [bind]. apply fls_word_high; auto.
    eapply wf_le; [|exact Hx]. lia. }
  destruct (Nat.leb_spec W 128).
  { destruct Hh as [H1' H2].
    destruct (N.eqb_spec (word64 x 1) 0) as [E|E]; cbn [negb].
    - assert (Hi64 : i < 64).
      { destruct (Nat.ltb_spec i 64); auto.
        assert (T : tb (word64 x 1) (i - 64) = true).
        { rewrite tb_word64. destruct (Nat.ltb_spec (i - 64) 64); [|lia].
          cbn [andb]. rewrite <- H1'. f_equal. lia. }
        rewrite E, tb_0 in T. discriminate. }
      apply fls_word_high; [apply wf_word64|]. split.
      + rewrite tb_word64. destruct (Nat.ltb_spec i 64); [|lia].
        cbn [andb]. rewrite <- H1'. f_equal. lia.
      + intros j Hj. rewrite tb_word64. destruct (Nat.ltb_spec j 64); auto.
        cbn [andb]. apply H2. lia.
    - assert (Hi64 : 64 <= i).
      { destruct (Nat.leb_spec 64 i); auto. exfalso. apply E.
        apply tb_ext. intros j. rewrite tb_0, tb_word64.
        destruct (Nat.ltb_spec j 64); auto. cbn [andb]. apply H2. lia. }
      rewrite (fls_word_high 64 _ (i - 64)); [cbn [bind]; f_equal; lia|apply wf_word64|].
      split.
      + rewrite tb_word64. destruct (Nat.ltb_spec (i - 64) 64); [|lia].
        cbn [andb]. rewrite <- H1'. f_equal. lia.
      + intros j Hj. rewrite tb_word64. destruct (Nat.ltb_spec j 64); auto.
        cbn [andb]. apply H2. lia. }
  apply fls_scan_high; auto.
Qed.

Lemma high_exists W x : wf W x -> x <> 0%N -> exists i, i < W /\ high x i.
Proof.
  intros Hx Hn. exists (N.to_nat (N.log2 x)).
  pose proof (tb_log2 x Hn) as H1. split; [|split; auto using tb_above_log2].
  destruct (Nat.ltb_spec (N.to_nat (N.log2 x)) W); auto.
  rewrite Hx in H1 by lia. discriminate.
Qed.

(** fls on the empty string is undefined on every code path *)
Lemma fls_empty W : fls W 0 = Err UB.
Proof.
  unfold fls.
  destruct (Nat.leb_spec W 32).
  { rewrite fast_to_ulong_ok by (auto; apply wf_0). reflexivity. }
  destruct (Nat.leb_spec W 64).
  { rewrite fast_to_ullong_ok by (auto; apply wf_0). reflexivity. }
  destruct (Nat.leb_spec W 128); [reflexivity|].
  clear. induction W as [|n IH]; cbn [fls_scan]; [reflexivity|].
  rewrite tb_0. exact IH.
Qed.

(** ** count and index lists *)

Lemma positions_S W x b :
  positions (S W) (2 * x + N.b2n b) = (if b then [0] else []) ++ map S (positions W x).
Proof.
  unfold positions. cbn [seq filter].
  assert (E0 : tb (2 * x + N.b2n b) 0 = b).
  { unfold tb. destruct b; simpl N.b2n.
    - apply N.testbit_odd_0.
    - rewrite N.add_0_r. apply N.testbit_even_0. }
  rewrite E0.
  assert (G : filter (tb (2 * x + N.b2n b)) (seq 1 W) = map S (filter (tb x) (seq 0 W))).
  { rewrite <- seq_shift. generalize (seq 0 W) as l.
    induction l as [|a l IH]; [reflexivity|]. cbn [map filter].
    assert (E : tb (2 * x + N.b2n b) (S a) = tb x a).
    { unfold tb. rewrite Nat2N.inj_succ. destruct b; simpl N.b2n.
      - apply N.testbit_odd_succ. lia.
      - rewrite N.add_0_r. apply N.testbit_even_succ. lia. }
    rewrite E. destruct (tb x a); cbn [map]; rewrite IH; reflexivity. }
  rewrite G. destruct b; reflexivity.
Qed.

Lemma wf_half W x b : wf (S W) (2 * x + N.b2n b) -> wf W x.
Proof.
  intros H. apply wf_lt. apply wf_lt in H. rewrite Nat2N.inj_succ, N.pow_succ_r in H by lia.
  destruct b; simpl N.b2n in H; lia.
Qed.

Lemma count_positions W x : wf W x -> bs_count x = length (positions W x).
Proof.
  revert x. induction W as [|W IH]; intros x Hx.
  - assert (x = 0%N) by (apply tb_ext; intros i; rewrite tb_0; apply Hx; lia).
    subst. reflexivity.
  - destruct x as [|[p|p|]].
    + change 0%N with (2 * 0 + N.b2n false)%N. rewrite positions_S. simpl.
      rewrite map_length, <- IH by apply wf_0. reflexivity.
    + change (N.pos p~1) with (2 * N.pos p + N.b2n true)%N in Hx |- * .
      rewrite positions_S. cbn [app length]. rewrite map_length, <- IH.
      * reflexivity.
      * eapply wf_half; exact Hx.
    + change (N.pos p~0) with (2 * N.pos p + N.b2n false)%N in Hx |- * .
      rewrite positions_S. cbn [app length]. rewrite map_length, <- IH.
      * reflexivity.
      * eapply wf_half; exact Hx.
    + change 1%N with (2 * 0 + N.b2n true)%N in Hx |- * .
      rewrite positions_S. cbn [app length]. rewrite map_length, <- IH.
      * reflexivity.
      * eapply wf_half; exact Hx.
Qed.

Lemma positions_flip_low W x i :
  i < W -> low x i -> positions W x = i :: positions W (flipb x i).
Proof.
  intros Hi [H1 H2]. apply sorted_ext.
  - apply positions_sorted.
  - constructor; [apply positions_sorted|]. apply Forall_forall. intros j Hj.
    apply positions_In in Hj. destruct Hj as [Hj Ht].
    destruct (lt_eq_lt_dec i j) as [[Hl|He]|Hl]; auto.
    + subst. rewrite tb_flip_same, H1 in Ht. discriminate.
    + rewrite tb_flip_other in Ht by lia. rewrite H2 in Ht by lia. discriminate.
  - intros j. cbn [In]. rewrite !positions_In. destruct (Nat.eq_dec i j) as [<-|Hn].
    + tauto.
    + rewrite tb_flip_other by lia. intuition.
Qed.

Lemma indices_loop_prefix W c : forall x,
  wf W x -> c <= length (positions W x) ->
  indices_loop W x c = Ok (firstn c (positions W x)).
Proof.
  induction c as [|c IH]; intros x Hx Hc; [reflexivity|]. cbn [indices_loop].
  assert (Hn : x <> 0%N).
  { intros ->. rewrite <- count_positions in Hc by auto. simpl in Hc. lia. }
  destruct (low_exists W x Hx Hn) as [i [Hi Hl]].
  rewrite (ffs_m1_low _ _ _ _ Hx Hl). cbn [bind]. unfold bs_flip.
  destruct (Nat.ltb_spec i W); [|lia]. cbn [bind].
  rewrite (positions_flip_low W x i) in * by auto. cbn [length firstn] in *.
  rewrite IH by (auto using wf_flip; lia). reflexivity.
Qed.

Lemma bits_to_indices_ok W x : wf W x -> bits_to_indices W x = Ok (positions W x).
Proof.
  intros Hx. unfold bits_to_indices. rewrite indices_loop_prefix; auto.
  - rewrite count_positions with (W := W) by auto. rewrite firstn_all. reflexivity.
  - rewrite count_positions with (W := W) by auto. lia.
Qed.

(** ** masks *)

Lemma tb_shr_ones M n i :
  n <= M -> tb (bs_shr (bs_not M 0) (M - n)) i = (i <? n).
Proof.
  intros H. rewrite tb_bs_shr, tb_not by apply wf_0. rewrite tb_0.
  destruct (Nat.ltb_spec i n), (Nat.ltb_spec (i + (M - n)) M); try reflexivity; lia.
Qed.

Lemma tb_full_mask_ct n M i : n <= M -> tb (full_mask_ct n M) i = (i <? n).
Proof.
  intros H. unfold full_mask_ct.
  destruct (n =? M / 2); [|apply tb_shr_ones, H].
  destruct (Nat.eqb_spec n 64) as [->|].
  { change (2 ^ 64 - 1)%N with (N.ones (N.of_nat 64)). apply tb_ones. }
  destruct (Nat.eqb_spec n 32) as [->|].
  { change (2 ^ 32 - 1)%N with (N.ones (N.of_nat 32)). apply tb_ones. }
  apply tb_shr_ones, H.
Qed.

Definition mask (W i : nat) : N := bs_shr (bs_not W 0) (W - i).

Lemma full_mask_ok W i : i <= W -> full_mask W i = Ok (mask W i).
Proof. intros H. unfold full_mask. destruct (Nat.leb_spec i W); [reflexivity|lia]. Qed.

Lemma tb_mask W i j : i <= W -> tb (mask W i) j = (j <? i).
Proof. apply tb_shr_ones. Qed.

(** ** width changes *)

Lemma tb_copy_bits x n i : tb (copy_bits x n) i = (i <? n) && tb x i.
Proof.
  induction n as [|n IH]; cbn [copy_bits].
  - rewrite tb_0. reflexivity.
  - destruct (tb x n) eqn:E.
    + rewrite tb_or, tb_bit, IH.
      destruct (Nat.eqb_spec i n), (Nat.ltb_spec i n), (Nat.ltb_spec i (S n));
        try lia; subst; simpl; rewrite ?E, ?orb_false_r; auto.
    + rewrite IH. destruct (Nat.ltb_spec i n), (Nat.ltb_spec i (S n)); try lia; auto.
      simpl. assert (i = n) by lia. subst. rewrite E; reflexivity.
Qed.

Lemma tb_bs_of_u64 n v i : tb (bs_of_u64 n v) i = (i <? n) && tb v i.
Proof. unfold bs_of_u64. rewrite tb_and, tb_ones. apply andb_comm. Qed.

Lemma truncate_ok n M x : n <= M -> wf M x ->
  exists y, truncate_bitset n M x = Ok y /\ forall i, tb y i = (i <? n) && tb x i.
Proof.
  intros Hn Hx. unfold truncate_bitset. destruct (Nat.eqb_spec M n).
  - subst. exists x. split; auto. intros i. destruct (Nat.ltb_spec i n); [reflexivity|].
    simpl. apply Hx. auto.
  - destruct (Nat.leb_spec n 64).
    + rewrite to_u64_ok.
      * cbn [bind]. eexists; split; [reflexivity|]. intros i.
        rewrite tb_bs_of_u64, tb_and, tb_full_mask_ct by auto.
        destruct (i <? n), (tb x i); reflexivity.
      * intros i Hi. rewrite tb_and, tb_full_mask_ct by auto.
        destruct (Nat.ltb_spec i n); [lia|]. apply andb_false_r.
    + eexists; split; [reflexivity|]. intros i. apply tb_copy_bits.
Qed.

Lemma expand_ok n M x : M <= n -> wf M x -> expand_bitset n M x = Ok x.
Proof.
  intros Hn Hx. unfold expand_bitset. destruct (Nat.eqb_spec M n); [reflexivity|].
  destruct (Nat.leb_spec M 64).
  - rewrite to_u64_ok by (eapply wf_le; [|exact Hx]; auto). cbn [bind]. f_equal.
    apply tb_ext. intros i. rewrite tb_bs_of_u64.
    destruct (Nat.ltb_spec i n); auto. simpl. symmetry. apply Hx. lia.
  - f_equal. apply tb_ext. intros i. rewrite tb_copy_bits.
    destruct (Nat.ltb_spec i M); auto. simpl. symmetry. apply Hx. lia.
Qed.

Lemma tb_lo W x i : spin_width W -> tb (bitset_lo_word W x) i = (i <? W / 2) && tb x i.
Proof.
  intros [->| ->]; unfold bitset_lo_word; cbn [Nat.eqb].
  - rewrite tb_word32. change (64 / 2) with 32. rewrite Nat.mul_0_r, Nat.add_0_r. reflexivity.
  - rewrite tb_word64. change (128 / 2) with 64. rewrite Nat.mul_0_r, Nat.add_0_r. reflexivity.
Qed.

Lemma tb_hi W x i : spin_width W ->
  tb (bitset_hi_word W x) i = (i <? W / 2) && tb x (i + W / 2).
Proof.
  intros [->| ->]; unfold bitset_hi_word; cbn [Nat.eqb].
  - rewrite tb_word32. change (64 / 2) with 32. rewrite Nat.mul_1_r. reflexivity.
  - rewrite tb_word64. change (128 / 2) with 64. rewrite Nat.mul_1_r. reflexivity.
Qed.

Lemma spin_width_half W : spin_width W -> W = W / 2 + W / 2.
Proof. intros [->| ->]; reflexivity. Qed.

Lemma wf_lo W x : spin_width W -> wf (W / 2) (bitset_lo_word W x).
Proof. intros H i Hi. rewrite tb_lo by auto. destruct (Nat.ltb_spec i (W/2)); [lia|reflexivity]. Qed.
Lemma wf_hi W x : spin_width W -> wf (W / 2) (bitset_hi_word W x).
Proof. intros H i Hi. rewrite tb_hi by auto. destruct (Nat.ltb_spec i (W/2)); [lia|reflexivity]. Qed.

Lemma lo_hi_recombine W x : spin_width W -> wf W x ->
  N.lor (bitset_lo_word W x) (bs_shl W (bitset_hi_word W x) (W / 2)) = x.
Proof.
  intros HW Hx. pose proof (spin_width_half W HW) as Hh. apply tb_ext. intros i.
  rewrite tb_or, tb_lo, tb_bs_shl, tb_hi by auto.
  destruct (Nat.ltb_spec i (W/2)), (Nat.ltb_spec i W), (Nat.leb_spec (W/2) i),
    (Nat.ltb_spec (i - W/2) (W/2)); try lia; cbn [andb orb].
  - apply orb_false_r.
  - f_equal. lia.
  - symmetry. apply Hx. lia.
Qed.

Lemma lo_of_combine W a b : spin_width W -> wf (W/2) a -> wf (W/2) b ->
  bitset_lo_word W (N.lor a (bs_shl W b (W / 2))) = a.
Proof.
  intros HW Ha Hb. pose proof (spin_width_half W HW) as Hh. apply tb_ext. intros i.
  rewrite tb_lo, tb_or, tb_bs_shl by auto.
  destruct (Nat.ltb_spec i (W/2)), (Nat.ltb_spec i W), (Nat.leb_spec (W/2) i); try lia;
   cbn [andb]; rewrite ?orb_false_r; auto; symmetry; apply Ha; lia.
Qed.

Lemma hi_of_combine W a b : spin_width W -> wf (W/2) a -> wf (W/2) b ->
  bitset_hi_word W (N.lor a (bs_shl W b (W / 2))) = b.
Proof.
  intros HW Ha Hb. pose proof (spin_width_half W HW) as Hh. apply tb_ext. intros i.
  rewrite tb_hi, tb_or, tb_bs_shl by auto.
  destruct (Nat.ltb_spec i (W/2)), (Nat.ltb_spec (i + W/2) W),
   (Nat.leb_spec (W/2) (i + W/2)); try lia; cbn [andb].
  - rewrite Ha by lia. simpl. f_equal. lia.
  - symmetry; apply Hb; lia.
Qed.

(** ** ordering *)

Lemma less_scan_lt n : forall x y, wf n x -> wf n y -> less_scan x y n = (x <? y)%N.
Proof.
  (* compare [x mod 2^n] and [y mod 2^n] *)
  assert (G : forall n x y, less_scan x y n = (x mod 2 ^ N.of_nat n <? y mod 2 ^ N.of_nat n)%N).
  { clear. intros n. induction n as [|n IH]; intros x y; cbn [less_scan].
    - change (2 ^ N.of_nat 0)%N with 1%N. rewrite !N.mod_1_r. reflexivity.
    - rewrite IH.
      assert (Hsp : forall z, (z mod 2 ^ N.of_nat (S n) =
        z mod 2 ^ N.of_nat n + 2 ^ N.of_nat n * N.b2n (tb z n))%N).
      { intros z. rewrite Nat2N.inj_succ, N.pow_succ_r', (N.mul_comm 2).
        rewrite N.mod_mul_r by (try apply N.pow_nonzero; lia). f_equal. f_equal.
        unfold tb. rewrite N.testbit_spec'. reflexivity. }
      rewrite (Hsp x), (Hsp y).
      assert (Hx : (x mod 2 ^ N.of_nat n < 2 ^ N.of_nat n)%N) by (apply N.mod_lt, N.pow_nonzero; lia).
      assert (Hy : (y mod 2 ^ N.of_nat n < 2 ^ N.of_nat n)%N) by (apply N.mod_lt, N.pow_nonzero; lia).
      set (xm := (x mod 2 ^ N.of_nat n)%N) in *. set (ym := (y mod 2 ^ N.of_nat n)%N) in *.
      clearbody xm ym. set (P := (2 ^ N.of_nat n)%N) in *. clearbody P.
      destruct (tb x n), (tb y n); cbn [xorb N.b2n].
      + rewrite !N.mul_1_r.
        destruct (N.ltb_spec xm ym), (N.ltb_spec (xm + P) (ym + P)); lia.
      + symmetry. apply N.ltb_ge. lia.
      + symmetry. apply N.ltb_lt. lia.
      + rewrite !N.mul_0_r, !N.add_0_r. reflexivity. }
  intros x y Hx Hy. rewrite G. apply wf_lt in Hx, Hy. rewrite !N.mod_small by auto. reflexivity.
Qed.

Lemma bitset_less_ok W x y : wf W x -> wf W y -> bitset_less W x y = Ok (x <? y)%N.
Proof.
  intros Hx Hy. unfold bitset_less.
  destruct (Nat.leb_spec W 32).
  { rewrite !fast_to_ulong_ok by auto. reflexivity. }
  destruct (Nat.leb_spec W 64).
  { rewrite !fast_to_ullong_ok by auto. reflexivity. }
  destruct (Nat.eqb_spec W 128); [reflexivity|].
  f_equal. apply less_scan_lt; auto.
Qed.

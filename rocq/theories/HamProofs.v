(** The code's matrix elements equal the second-quantised ones. *)
From Coq Require Import QArith Qcanon Sorting.Permutation.
From Verif Require Import Base Bits BitsProofs SD Spec SDProofs SDProofs2 SDProofs4 SDProofs5 Sums FockSpec
  FockProofs SlaterCondon Ham.
Local Open Scope nat_scope.

(** ** loops as sums *)
Lemma sumM_ok {A} (l : list A) f g : forall acc,
  (forall a, In a l -> f a = Ok (g a)) -> sumM acc l f = Ok (acc + sum l g)%Qc.
Proof.
  induction l as [|a l IH]; intros acc H; cbn [sumM sum].
  - f_equal. ring.
  - rewrite (H a) by (left; auto). cbn [bind]. rewrite IH by (intros; apply H; right; auto).
    f_equal. ring.
Qed.

Lemma T_at_ok h p q : p < norb h -> q < norb h -> T_at h p q = Ok (T_pq h p q).
Proof. intros A B. unfold T_at. apply Nat.ltb_lt in A, B. rewrite A, B. reflexivity. Qed.
Lemma in4_ok n p q r s : p < n -> q < n -> r < n -> s < n -> in4 n p q r s = true.
Proof.
  intros A B C D. unfold in4. apply Nat.ltb_lt in A, B, C, D. rewrite A, B, C, D. reflexivity.
Qed.
Lemma V_at_ok h p q r s : p < norb h -> q < norb h -> r < norb h -> s < norb h ->
  V_at h p q r s = Ok (V_pqrs h p q r s).
Proof. intros. unfold V_at. rewrite in4_ok; auto. Qed.
Lemma G_at_ok h p q r s : p < norb h -> q < norb h -> r < norb h -> s < norb h ->
  G_at h p q r s = Ok (G_pqrs h p q r s).
Proof. intros. unfold G_at. rewrite in4_ok; auto. Qed.
Definition G2 h i j := (half * G_pqrs h i i j j)%Qc.
Lemma G2_at_ok h i j : i < norb h -> j < norb h -> G2_at h i j = Ok (G2 h i j).
Proof. intros. unfold G2_at. rewrite G_at_ok; auto. Qed.
Lemma V2_at_ok h i j : i < norb h -> j < norb h -> V2_at h i j = Ok (V_pqrs h i i j j).
Proof. intros. unfold V2_at. rewrite V_at_ok; auto. Qed.

(** ** phases of the code *)
Lemma odd_sub_parity s lo hi : lo <= hi ->
  Nat.odd (length (filter (fun k => tb s k && (lo <=? k)) (seq 0 hi))) =
  xorb (parity_below s lo) (parity_below s hi).
Proof.
  intros H. induction H as [|hi H IH].
  - rewrite xorb_nilpotent. rewrite (proj2 (length_zero_iff_nil _)); [reflexivity|].
    apply filter_none. intros k Hk. apply in_seq in Hk. destruct (Nat.leb_spec lo k); [lia|].
    apply andb_false_r.
  - rewrite seq_S, filter_app, app_length, parity_below_S. cbn [filter plus].
    destruct (Nat.leb_spec lo hi); [|lia]. rewrite andb_true_r.
    destruct (tb s hi); cbn [length].
    + rewrite Nat.odd_add, IH. destruct (parity_below s lo), (parity_below s hi); reflexivity.
    + rewrite Nat.add_0_r, IH, xorb_false_r. reflexivity.
Qed.

Lemma sign_ok H s p q : p < H -> q < H -> wf H s -> p <> q -> tb s q = true -> tb s p = false ->
  single_excitation_sign H s p q = Ok (sg1 s p q).
Proof.
  intros Hp Hq Hs Hd Tq Tp. unfold single_excitation_sign.
  assert (G : forall lo hi, lo < hi -> hi < H ->
     Nat.odd (bs_count (N.land s (N.lxor (mask H hi) (mask H (lo + 1))))) =
     xorb (parity_below s (S lo)) (parity_below s hi)).
  { intros lo hi L1 L2.
    assert (Wm : wf hi (N.land s (N.lxor (mask H hi) (mask H (lo + 1))))).
    { intros k Hk. rewrite tb_and, tb_xor, !tb_mask by lia.
      destruct (Nat.ltb_spec k hi), (Nat.ltb_spec k (lo+1)); try lia. apply andb_false_r. }
    rewrite (count_positions hi) by auto. rewrite <- odd_sub_parity by lia. f_equal. f_equal.
    unfold positions. apply filter_ext_in. intros k Hk. apply in_seq in Hk.
    rewrite tb_and, tb_xor, !tb_mask by lia.
    destruct (Nat.ltb_spec k hi), (Nat.ltb_spec k (lo+1)), (Nat.leb_spec (S lo) k); try lia; reflexivity. }
  unfold sg1. destruct (Nat.ltb_spec q p).
  - rewrite !full_mask_ok by lia. cbn [bind]. rewrite G by lia. rewrite parity_below_S, Tq.
    destruct (parity_below s q), (parity_below s p); reflexivity.
  - rewrite !full_mask_ok by lia. cbn [bind]. rewrite G by lia. rewrite parity_below_S, Tp.
    destruct (parity_below s q), (parity_below s p); reflexivity.
Qed.

Lemma low_ex (a b : N) (o : nat) : tb a o = true -> tb b o = true ->
  (forall k, k < o -> tb a k && tb b k = false) -> low (N.land a b) o.
Proof.
  intros A B C. split; [rewrite tb_and, A, B; reflexivity|].
  intros j Hj. rewrite tb_and. auto.
Qed.

Lemma single_ok H s o v : wf H s -> o < H -> v < H -> tb s o = true -> tb s v = false ->
  single_excitation_sign_indices H (flip2 s (o, v)) s (N.lxor (flip2 s (o, v)) s) =
  Ok (o, v, sg1 s v o).
Proof.
  intros Hs Ho Hv To Tv. assert (Hd : o <> v) by congruence.
  assert (X : forall k, tb (N.lxor (flip2 s (o, v)) s) k = (k =? o) || (k =? v)).
  { intros k. unfold flip2. cbn [fst snd]. rewrite tb_xor, !tb_flip.
    destruct (Nat.eqb_spec k o), (Nat.eqb_spec k v), (tb s k); try lia; reflexivity. }
  assert (Wt : wf H (flip2 s (o, v))) by (unfold flip2; apply wf_flip; auto; apply wf_flip; auto).
  unfold single_excitation_sign_indices, first_occupied_flipped.
  rewrite (ffs_m1_low _ H _ o).
  2:{ apply wf_and; auto. }
  2:{ apply low_ex; auto. - rewrite X, Nat.eqb_refl. reflexivity.
      - intros k Hk. rewrite X. destruct (Nat.eqb_spec k o); [lia|].
        destruct (Nat.eqb_spec k v); [subst k; rewrite Tv; reflexivity|]. apply andb_false_r. }
  cbn [bind]. rewrite (ffs_m1_low _ H _ v).
  2:{ apply wf_and; auto. }
  2:{ apply low_ex.
      - unfold flip2. cbn [fst snd]. rewrite !tb_flip, Tv, Nat.eqb_refl.
        destruct (Nat.eqb_spec v o); [lia|]. reflexivity.
      - rewrite X, Nat.eqb_refl, orb_true_r. reflexivity.
      - intros k Hk. rewrite X. destruct (Nat.eqb_spec k v); [lia|].
        destruct (Nat.eqb_spec k o); [|apply andb_false_r]. subst k.
        unfold flip2. cbn [fst snd]. rewrite !tb_flip, To, Nat.eqb_refl.
        destruct (Nat.eqb_spec o v); [lia|]. reflexivity. }
  cbn [bind]. rewrite sign_ok; auto.
Qed.

Lemma flip4_bits s i a j b k : tb (flip4 s (i, a, j, b)) k =
  xorb (xorb (xorb (xorb (tb s k) (k =? i)) (k =? j)) (k =? b)) (k =? a).
Proof.
  unfold flip4. cbn. rewrite !tb_flip.
  destruct (tb s k), (k =? i), (k =? j), (k =? a), (k =? b); reflexivity.
Qed.

Lemma double_ok H s i a j b : wf H s -> i < H -> a < H -> j < H -> b < H ->
  tb s i = true -> tb s j = true -> tb s a = false -> tb s b = false -> i < j -> a < b ->
  doubles_sign_indices H (flip4 s (i, a, j, b)) s (N.lxor (flip4 s (i, a, j, b)) s) =
  Ok (i, a, j, b, sg2 s a b j i).
Proof.
  intros Hs Hi Ha Hj Hb Ti Tj Ta Tb Lij Lab.
  assert (i <> a) by congruence. assert (i <> b) by congruence.
  assert (j <> a) by congruence. assert (j <> b) by congruence.
  set (t := flip4 s (i, a, j, b)).
  assert (Tt : forall k, tb t k = xorb (xorb (xorb (xorb (tb s k) (k =? i)) (k =? j)) (k =? b)) (k =? a))
    by (intros; apply flip4_bits).
  assert (X : forall k, tb (N.lxor t s) k = ((k =? i) || (k =? j)) || ((k =? a) || (k =? b))).
  { intros k. rewrite tb_xor, Tt.
    destruct (Nat.eqb_spec k i), (Nat.eqb_spec k j), (Nat.eqb_spec k a), (Nat.eqb_spec k b);
    try lia; destruct (tb s k); reflexivity. }
  assert (Wt : wf H t).
  { intros k Hk. rewrite Tt, Hs by auto.
    destruct (Nat.eqb_spec k i), (Nat.eqb_spec k j), (Nat.eqb_spec k a), (Nat.eqb_spec k b);
    try lia; reflexivity. }
  clearbody t.
  unfold doubles_sign_indices, first_occupied_flipped.
  rewrite (ffs_m1_low _ H _ i).
  2:{ apply wf_and; auto. }
  2:{ apply low_ex; auto. - rewrite X, Nat.eqb_refl. reflexivity.
      - intros k Hk. rewrite X.
        destruct (Nat.eqb_spec k i), (Nat.eqb_spec k j), (Nat.eqb_spec k a), (Nat.eqb_spec k b);
        try lia; cbn [orb]; try (subst k; rewrite ?Ta, ?Tb; reflexivity); apply andb_false_r. }
  cbn [bind]. rewrite (ffs_m1_low _ H _ a).
  2:{ apply wf_and; auto. }
  2:{ apply low_ex.
      - rewrite Tt, Ta, Nat.eqb_refl.
        destruct (Nat.eqb_spec a i), (Nat.eqb_spec a j), (Nat.eqb_spec a b); try lia. reflexivity.
      - rewrite X, Nat.eqb_refl. cbn [orb]. apply orb_true_r.
      - intros k Hk. rewrite X, Tt.
        destruct (Nat.eqb_spec k i), (Nat.eqb_spec k j), (Nat.eqb_spec k a), (Nat.eqb_spec k b);
        try lia; cbn [orb xorb]; try (subst k; rewrite ?Ti, ?Tj; reflexivity); apply andb_false_r. }
  cbn [bind]. rewrite sign_ok; auto. cbn [bind]. unfold bs_flip.
  rewrite (proj2 (Nat.ltb_lt i H) Hi), (proj2 (Nat.ltb_lt a H) Ha). cbn [bind].
  assert (Ws : wf H (flipb (flipb s i) a)) by (apply wf_flip; auto; apply wf_flip; auto).
  assert (TS : forall k, tb (flipb (flipb s i) a) k = xorb (xorb (tb s k) (k =? i)) (k =? a))
    by (intros; rewrite !tb_flip; reflexivity).
  assert (XX : forall k, tb (flipb (flipb (N.lxor t s) i) a) k = (k =? j) || (k =? b)).
  { intros k. rewrite !tb_flip, X.
    destruct (Nat.eqb_spec k i), (Nat.eqb_spec k j), (Nat.eqb_spec k a), (Nat.eqb_spec k b);
    try lia; reflexivity. }
  rewrite (ffs_m1_low _ H _ j).
  2:{ apply wf_and; auto. }
  2:{ apply low_ex.
      - rewrite TS, Tj. destruct (Nat.eqb_spec j i), (Nat.eqb_spec j a); try lia. reflexivity.
      - rewrite XX, Nat.eqb_refl. reflexivity.
      - intros k Hk. rewrite XX, TS.
        destruct (Nat.eqb_spec k j), (Nat.eqb_spec k b); try lia; cbn [orb]; try apply andb_false_r.
        subst k. rewrite Tb. destruct (Nat.eqb_spec b i), (Nat.eqb_spec b a); try lia. reflexivity. }
  cbn [bind]. rewrite (ffs_m1_low _ H _ b).
  2:{ apply wf_and; auto. }
  2:{ apply low_ex.
      - rewrite Tt, Tb, Nat.eqb_refl.
        destruct (Nat.eqb_spec b i), (Nat.eqb_spec b j), (Nat.eqb_spec b a); try lia. reflexivity.
      - rewrite XX, Nat.eqb_refl. apply orb_true_r.
      - intros k Hk. rewrite XX, Tt.
        destruct (Nat.eqb_spec k j), (Nat.eqb_spec k b); try lia; cbn [orb]; try apply andb_false_r.
        subst k. rewrite Tj. destruct (Nat.eqb_spec j i), (Nat.eqb_spec j a); try lia. reflexivity. }
  cbn [bind]. rewrite sign_ok; auto; try lia.
  - cbn [bind]. f_equal. f_equal. unfold sg1, sg2. rewrite !parity_flip.
    assert (Ea : (a <? j) = negb (j <? a))
      by (destruct (Nat.ltb_spec a j), (Nat.ltb_spec j a); try lia; reflexivity).
    assert (Eb : (b <? a) = false) by (apply Nat.ltb_ge; lia).
    assert (Ec : (a <? b) = true) by (apply Nat.ltb_lt; lia).
    assert (Ed : (i <? j) = true) by (apply Nat.ltb_lt; lia).
    rewrite Ea, Eb, Ec, Ed.
    destruct (parity_below s i), (parity_below s j), (parity_below s a), (parity_below s b),
      (i <? a), (i <? b), (j <? a), (j <? b); reflexivity.
  - rewrite TS, Tj. destruct (Nat.eqb_spec j i), (Nat.eqb_spec j a); try lia. reflexivity.
  - rewrite TS, Tb. destruct (Nat.eqb_spec b i), (Nat.eqb_spec b a); try lia. reflexivity.
Qed.

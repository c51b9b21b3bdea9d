(** Phases (C11, C12), hermiticity (C14), selection rules (C15). *)
From Coq Require Import QArith Qcanon Sorting.Permutation.
From Verif Require Import Base Bits BitsProofs SD Spec SDProofs SDProofs2 SDProofs4 SDProofs5 Sums
  FockSpec FockProofs SlaterCondon Ham HamProofs HamProofs2 HamProofs3 HamProofs4.
Local Open Scope nat_scope.

Lemma flip2_move s o v : tb s o = true -> tb s v = false ->
  flipb (flipb s o) v = flip2 s (o, v).
Proof. reflexivity. Qed.

Lemma single_phase H bra ket : wf H bra -> wf H ket -> moves 1 ket bra ->
  exists o v sg,
    single_excitation_sign_indices H bra ket (N.lxor bra ket) = Ok (o, v, sg) /\
    (forall k, tb ket k = true /\ tb bra k = false <-> k = o) /\
    (forall k, tb bra k = true /\ tb ket k = false <-> k = v) /\
    apply [Cre v; Ann o] ket = Some (sg, bra) /\
    single_excitation_sign_indices H ket bra (N.lxor ket bra) = Ok (v, o, sg) /\
    apply [Cre o; Ann v] bra = Some (sg, ket).
Proof.
  intros Wb Wk M. apply moves_1 in M. destruct M as (o & v & To & Tv & E).
  assert (Nov : o <> v) by congruence.
  assert (LT : forall k, tb ket k = true -> k < H).
  { intros k Hk. destruct (Nat.ltb_spec k H); auto. rewrite Wk in Hk by auto. discriminate. }
  assert (LT' : forall k, tb bra k = true -> k < H).
  { intros k Hk. destruct (Nat.ltb_spec k H); auto. rewrite Wb in Hk by auto. discriminate. }
  assert (B : forall k, tb bra k = xorb (xorb (tb ket k) (k =? o)) (k =? v)).
  { intros k. rewrite E. unfold flip2. cbn [fst snd]. rewrite !tb_flip. reflexivity. }
  assert (Bo : tb bra o = false).
  { rewrite B, To, Nat.eqb_refl. destruct (Nat.eqb_spec o v); [lia|reflexivity]. }
  assert (Bv : tb bra v = true).
  { rewrite B, Tv, Nat.eqb_refl. destruct (Nat.eqb_spec v o); [lia|reflexivity]. }
  assert (E' : ket = flip2 bra (v, o)).
  { apply tb_ext. intros k. unfold flip2. cbn [fst snd]. rewrite !tb_flip, B.
    destruct (tb ket k), (k =? o), (k =? v); reflexivity. }
  assert (SG : sg1 bra o v = sg1 ket v o).
  { rewrite E. unfold sg1, flip2. cbn [fst snd]. rewrite !parity_flip, !Nat.ltb_irrefl.
    assert (X : (v <? o) = negb (o <? v)).
    { destruct (Nat.ltb_spec v o), (Nat.ltb_spec o v); try lia; reflexivity. }
    rewrite X. destruct (parity_below ket o), (parity_below ket v), (o <? v); reflexivity. }
  exists o, v, (sg1 ket v o). split; [|split; [|split; [|split; [|split]]]].
  - rewrite E. apply single_ok; auto.
  - intros k. rewrite B. split.
    + intros [A C]. rewrite A in C. destruct (Nat.eqb_spec k o); auto.
      destruct (Nat.eqb_spec k v); [subst; congruence|discriminate].
    + intros ->. rewrite To, Nat.eqb_refl. destruct (Nat.eqb_spec o v); [lia|auto].
  - intros k. rewrite B. split.
    + intros [A C]. rewrite C in A. destruct (Nat.eqb_spec k v); auto.
      destruct (Nat.eqb_spec k o); [subst; congruence|discriminate].
    + intros ->. rewrite Tv, Nat.eqb_refl. destruct (Nat.eqb_spec v o); [lia|auto].
  - rewrite apply1. rewrite (proj2 (ok1_spec ket v o)) by auto. rewrite E. reflexivity.
  - pose proof (single_ok H bra v o Wb (LT' _ Bv) (LT _ To) Bv Bo) as Q. rewrite <- E' in Q.
    rewrite Q, SG. reflexivity.
  - rewrite apply1. rewrite (proj2 (ok1_spec bra o v)) by auto. rewrite SG. rewrite (flip2_move bra v o), <- E' by auto. reflexivity.
Qed.

Lemma double_phase H bra ket : wf H bra -> wf H ket -> moves 2 ket bra ->
  exists o1 v1 o2 v2 sg,
    doubles_sign_indices H bra ket (N.lxor bra ket) = Ok (o1, v1, o2, v2, sg) /\
    doubles_sign H bra ket (N.lxor bra ket) = Ok sg /\
    o1 < o2 /\ v1 < v2 /\
    (forall k, tb ket k = true /\ tb bra k = false <-> k = o1 \/ k = o2) /\
    (forall k, tb bra k = true /\ tb ket k = false <-> k = v1 \/ k = v2) /\
    apply [Cre v1; Cre v2; Ann o2; Ann o1] ket = Some (sg, bra).
Proof.
  intros Wb Wk M. apply moves_2 in M.
  destruct M as (i & a & j & b & (Ti & Tj & L1) & (Ta & Tb & L2) & E).
  assert (LT : forall k, tb ket k = true -> k < H).
  { intros k Hk. destruct (Nat.ltb_spec k H); auto. rewrite Wk in Hk by auto. discriminate. }
  assert (LT' : forall k, tb bra k = true -> k < H).
  { intros k Hk. destruct (Nat.ltb_spec k H); auto. rewrite Wb in Hk by auto. discriminate. }
  assert (i <> a) by congruence. assert (i <> b) by congruence.
  assert (j <> a) by congruence. assert (j <> b) by congruence.
  assert (B : forall k, tb bra k = xorb (xorb (xorb (xorb (tb ket k) (k =? i)) (k =? j)) (k =? b)) (k =? a)).
  { intros k. rewrite E. apply flip4_bits. }
  assert (Ba : tb bra a = true).
  { rewrite B, Ta, Nat.eqb_refl.
    destruct (Nat.eqb_spec a i), (Nat.eqb_spec a j), (Nat.eqb_spec a b); try lia; reflexivity. }
  assert (Bb : tb bra b = true).
  { rewrite B, Tb, Nat.eqb_refl.
    destruct (Nat.eqb_spec b i), (Nat.eqb_spec b j), (Nat.eqb_spec b a); try lia; reflexivity. }
  assert (D : doubles_sign_indices H bra ket (N.lxor bra ket) = Ok (i, a, j, b, sg2 ket a b j i)).
  { rewrite E. apply double_ok; auto. }
  exists i, a, j, b, (sg2 ket a b j i). split; [exact D|]. split.
  { unfold doubles_sign. rewrite D. reflexivity. }
  split; [auto|]. split; [auto|]. split; [|split].
  - intros k. rewrite B. split.
    + intros [A C]. rewrite A in C. destruct (Nat.eqb_spec k i); auto. destruct (Nat.eqb_spec k j); auto.
      destruct (Nat.eqb_spec k b); [subst; congruence|]. destruct (Nat.eqb_spec k a); [subst; congruence|].
      discriminate.
    + intros [-> | ->]; [rewrite Ti|rewrite Tj]; rewrite Nat.eqb_refl;
      destruct (Nat.eqb_spec i j), (Nat.eqb_spec i a), (Nat.eqb_spec i b), (Nat.eqb_spec j i),
        (Nat.eqb_spec j a), (Nat.eqb_spec j b); try lia; auto.
  - intros k. rewrite B. split.
    + intros [A C]. rewrite C in A. destruct (Nat.eqb_spec k a); auto. destruct (Nat.eqb_spec k b); auto.
      destruct (Nat.eqb_spec k i); [subst; congruence|]. destruct (Nat.eqb_spec k j); [subst; congruence|].
      discriminate.
    + intros [-> | ->]; [rewrite Ta|rewrite Tb]; rewrite Nat.eqb_refl;
      destruct (Nat.eqb_spec a i), (Nat.eqb_spec a j), (Nat.eqb_spec a b), (Nat.eqb_spec b i),
        (Nat.eqb_spec b j), (Nat.eqb_spec b a); try lia; auto.
  - rewrite apply2. rewrite (proj2 (ok2_spec ket a b j i)).
    + f_equal. f_equal. apply tb_ext. intros k. rewrite B, !tb_flip. reflexivity.
    + repeat split; auto; try lia.
Qed.

(** opposite-spin double excitation: the two string phases multiply *)
Lemma mixed_phase W bra ket : spin_width W -> wf W bra -> wf W ket ->
  moves 1 (alpha W ket) (alpha W bra) -> moves 1 (beta W ket) (beta W bra) ->
  exists o1 v1 s1 o2 v2 s2,
    single_excitation_sign_indices (W / 2) (alpha W bra) (alpha W ket)
      (N.lxor (alpha W bra) (alpha W ket)) = Ok (o1, v1, s1) /\
    single_excitation_sign_indices (W / 2) (beta W bra) (beta W ket)
      (N.lxor (beta W bra) (beta W ket)) = Ok (o2, v2, s2) /\
    apply [Cre (so W false v1); Cre (so W true v2); Ann (so W true o2); Ann (so W false o1)] ket
      = Some (xorb s1 s2, bra).
Proof.
  intros HW Wb Wk Ma Mb.
  assert (HA : forall x, wf (W/2) (alpha W x)).
  { intros x i Hi. unfold alpha. rewrite tb_mod. destruct (Nat.ltb_spec i (W/2)); [lia|reflexivity]. }
  pose proof (spin_width_half W HW) as HH.
  assert (HB : forall x, wf W x -> wf (W/2) (beta W x)).
  { intros x Hx i Hi. unfold beta. rewrite tb_div. apply Hx. lia. }
  apply moves_1 in Ma, Mb. destruct Ma as (o1 & v1 & T1 & U1 & E1), Mb as (o2 & v2 & T2 & U2 & E2).
  assert (LT : forall s x k, wf W x -> tb (str W s x) k = true -> k < W/2).
  { intros s x k Hx Hk. destruct (Nat.ltb_spec k (W/2)); auto.
    destruct s; cbn [str] in Hk; [rewrite (HB x Hx) in Hk by auto|rewrite HA in Hk by auto]; discriminate. }
  assert (N1 : o1 <> v1) by congruence. assert (N2 : o2 <> v2) by congruence.
  assert (V1 : v1 < W/2).
  { apply (LT false bra); auto. cbn [str]. rewrite E1. unfold flip2. cbn [fst snd].
    rewrite !tb_flip, U1, Nat.eqb_refl. destruct (Nat.eqb_spec v1 o1); [lia|reflexivity]. }
  assert (V2 : v2 < W/2).
  { apply (LT true bra); auto. cbn [str]. rewrite E2. unfold flip2. cbn [fst snd].
    rewrite !tb_flip, U2, Nat.eqb_refl. destruct (Nat.eqb_spec v2 o2); [lia|reflexivity]. }
  assert (O1 : o1 < W/2) by (apply (LT false ket); auto).
  assert (O2 : o2 < W/2) by (apply (LT true ket); auto).
  exists o1, v1, (sg1 (alpha W ket) v1 o1), o2, v2, (sg1 (beta W ket) v2 o2).
  split; [rewrite E1; apply single_ok; auto|]. split; [rewrite E2; apply single_ok; auto|].
  rewrite apply2. rewrite sg2_mixed by auto.
  rewrite (proj2 (ok2_spec _ _ _ _ _)).
  - f_equal. f_equal. apply tb_ext. intros k. destruct (so_cover W k) as (t & p & -> & C).
    rewrite !tb_flip, !tb_str by auto. rewrite !so_eqb by auto.
    destruct t; cbn [str eqb andb].
    + rewrite E2. unfold flip2. cbn [fst snd]. rewrite !tb_flip, !xorb_false_r. reflexivity.
    + rewrite E1. unfold flip2. cbn [fst snd]. rewrite !tb_flip, !xorb_false_r. reflexivity.
  - rewrite !tb_str by auto. cbn [str]. repeat split; auto; unfold so; try lia.
Qed.

(** ** adjoints *)
Definition adj (o : op) : op := match o with Cre p => Ann p | Ann p => Cre p end.

Lemma act_adj o s sg t : act o s = Some (sg, t) -> act (adj o) t = Some (sg, s).
Proof.
  destruct o as [p|p]; cbn [adj]; intros H.
  - destruct (tb s p) eqn:E; [cbn [act] in H; rewrite E in H; discriminate|].
    rewrite (act_cre s p E) in H. injection H as <- <-.
    rewrite act_ann by (rewrite tb_flip, E, Nat.eqb_refl; reflexivity).
    rewrite parity_flip, Nat.ltb_irrefl, xorb_false_r. f_equal. f_equal.
    apply tb_ext. intros i. rewrite !tb_flip. destruct (tb s i), (i =? p); reflexivity.
  - destruct (tb s p) eqn:E; [|cbn [act] in H; rewrite E in H; discriminate].
    rewrite (act_ann s p E) in H. injection H as <- <-.
    rewrite act_cre by (rewrite tb_flip, E, Nat.eqb_refl; reflexivity).
    rewrite parity_flip, Nat.ltb_irrefl, xorb_false_r. f_equal. f_equal.
    apply tb_ext. intros i. rewrite !tb_flip. destruct (tb s i), (i =? p); reflexivity.
Qed.

Lemma apply_app l1 l2 s : apply (l1 ++ l2) s =
  match apply l2 s with None => None | Some (sg, t) =>
  match apply l1 t with None => None | Some (sg', t') => Some (xorb sg sg', t') end end.
Proof.
  induction l1 as [|o l1 IH]; cbn [app apply].
  - destruct (apply l2 s) as [[sg t]|]; [rewrite xorb_false_r|]; reflexivity.
  - rewrite IH. destruct (apply l2 s) as [[sg t]|]; auto. destruct (apply l1 t) as [[sg' t']|]; auto.
    destruct (act o t') as [[sg'' t'']|]; auto. rewrite xorb_assoc. reflexivity.
Qed.

Lemma apply_adj l : forall s sg t, apply l s = Some (sg, t) -> apply (rev (map adj l)) t = Some (sg, s).
Proof.
  induction l as [|o l IH]; cbn [map rev apply]; intros s sg t H.
  - injection H as <- <-. reflexivity.
  - rewrite apply_app. destruct (apply l s) as [[sg1 t1]|] eqn:E; [|discriminate].
    destruct (act o t1) as [[sg2 t2]|] eqn:E2; [|discriminate]. injection H as <- <-.
    cbn [apply]. rewrite (act_adj _ _ _ _ E2). cbn [xorb].
    rewrite (IH _ _ _ E). f_equal. f_equal. destruct sg1, sg2; reflexivity.
Qed.

Lemma braket_adj l bra ket : braket bra l ket = braket ket (rev (map adj l)) bra.
Proof.
  assert (II : forall l, rev (map adj (rev (map adj l))) = l).
  { intros m. rewrite map_rev, rev_involutive, map_map. rewrite <- (map_id m) at 2. apply map_ext.
    intros []; reflexivity. }
  unfold braket. destruct (apply l ket) as [[sg t]|] eqn:E.
  - destruct (N.eqb_spec t bra) as [->|D].
    + rewrite (apply_adj _ _ _ _ E), N.eqb_refl. reflexivity.
    + destruct (apply (rev (map adj l)) bra) as [[sg' t']|] eqn:E'; auto.
      destruct (N.eqb_spec t' ket) as [->|D']; auto.
      apply apply_adj in E'. rewrite II in E'. rewrite E' in E. congruence.
  - destruct (apply (rev (map adj l)) bra) as [[sg' t']|] eqn:E'; auto.
    destruct (N.eqb_spec t' ket) as [->|D']; auto.
    apply apply_adj in E'. rewrite II in E'. rewrite E' in E. congruence.
Qed.

Lemma ham_sym W n T V bra ket :
  (forall p q, p < n -> q < n -> T p q = T q p) ->
  (forall p q r s, p < n -> q < n -> r < n -> s < n -> V p q r s = V q p s r) ->
  ham W n T V bra ket = ham W n T V ket bra.
Proof.
  intros ST SV. unfold ham. f_equal; [|f_equal].
  - unfold one_body. apply sum_ext. intros sg _. rewrite sum_swap. apply sum_ext. intros p Hp.
    apply sum_ext. intros q Hq. apply in_seq in Hp, Hq. rewrite braket_adj. cbn [map adj rev app].
    rewrite ST by lia. reflexivity.
  - unfold two_body. apply sum_ext. intros sg _. apply sum_ext. intros ta _.
    rewrite sum_swap. apply sum_ext. intros q Hq. apply sum_ext. intros p Hp.
    rewrite sum_swap. apply sum_ext. intros s Hs. apply sum_ext. intros r Hr.
    apply in_seq in Hp, Hq, Hr, Hs. rewrite braket_adj. cbn [map adj rev app].
    rewrite SV by lia. reflexivity.
Qed.

(** ** C15 *)
Lemma count_split W x : spin_width W -> wf W x ->
  bs_count x = bs_count (alpha W x) + bs_count (beta W x).
Proof.
  intros HW Hx. pose proof (spin_width_half W HW) as HH.
  rewrite (count_positions W x Hx). unfold positions. replace W with (W/2 + W/2) at 1 by lia.
  rewrite seq_app, filter_app, app_length. f_equal.
  - rewrite (count_positions (W/2)).
    + unfold positions. f_equal. apply filter_ext_in. intros i Hi. apply in_seq in Hi.
      unfold alpha. rewrite tb_mod. destruct (Nat.ltb_spec i (W/2)); [reflexivity|lia].
    + intros i Hi. unfold alpha. rewrite tb_mod. destruct (Nat.ltb_spec i (W/2)); [lia|reflexivity].
  - rewrite (count_positions (W/2)).
    + unfold positions. rewrite Nat.add_0_l.
      assert (G : forall k a, length (filter (tb x) (seq (a + W/2) k)) = length (filter (tb (beta W x)) (seq a k))).
      { induction k as [|k IH]; intros a; cbn [seq filter]; auto.
        replace (tb (beta W x) a) with (tb x (a + W/2)) by (unfold beta; rewrite tb_div; reflexivity).
        specialize (IH (S a)). cbn [plus] in IH. destruct (tb x (a + W/2)); cbn [length]; lia. }
      apply (G (W/2) 0).
    + intros i Hi. unfold beta. rewrite tb_div. apply Hx. lia.
Qed.

Lemma me_far W h bra ket k : spin_width W -> wf W bra -> wf W ket ->
  size_is (N.lxor bra ket) k -> 4 < k -> matrix_element W h bra ket = Ok 0%Qc.
Proof.
  intros HW Wb Wk S L. pose proof (spin_width_half W HW) as HH.
  unfold matrix_element. rewrite !bits_to_indices_ok.
  2:{ rewrite <- beta_hi by auto. intros i Hi. unfold beta. rewrite tb_div. apply Wb. lia. }
  2:{ rewrite <- alpha_lo by auto. intros i Hi. unfold alpha. rewrite tb_mod.
      destruct (Nat.ltb_spec i (W/2)); [lia|reflexivity]. }
  cbn [bind]. unfold matrix_element_spin. rewrite <- lo_xor, <- hi_xor by auto.
  assert (Wx : wf W (N.lxor bra ket)).
  { intros i Hi. rewrite tb_xor, Wb, Wk by auto. reflexivity. }
  apply size_is_count in S. rewrite (count_split W) in S by auto.
  rewrite (alpha_lo W), (beta_hi W) in S by auto. rewrite S.
  rewrite (proj2 (Nat.ltb_lt 4 k) L). reflexivity.
Qed.

(** Proofs about sd_operations, part 4: HF determinants, canonical strings. *)
From Coq Require Import Sorting.Permutation Sorting.Sorted QArith Qcanon Ascii.
From Verif Require Import Base Bits BitsProofs SD Spec SDProofs SDProofs2.
Local Open Scope nat_scope.

Lemma even_half W : Nat.even W = true -> W / 2 + W / 2 = W.
Proof.
  intros HW. apply Nat.even_spec in HW. destruct HW as [m ->].
  rewrite (Nat.mul_comm 2), Nat.div_mul; lia.
Qed.

Lemma spin_width_even W : spin_width W -> Nat.even W = true.
Proof. intros [->| ->]; reflexivity. Qed.

Lemma canonical_hf_ok W na nb : Nat.even W = true -> na <= W / 2 -> nb <= W / 2 ->
  exists r, canonical_hf W na nb = Ok r /\ wf W r /\
    (forall p, p < W / 2 -> (tb r p = true <-> p < na)) /\
    (forall p, p < W / 2 -> (tb r (p + W / 2) = true <-> p < nb)).
Proof.
  intros HW Ha Hb. pose proof (even_half W HW) as HH. unfold canonical_hf.
  rewrite !full_mask_ok by lia. cbn [bind]. eexists; split; [reflexivity|].
  assert (T : forall k, tb (N.lor (mask W na) (bs_shl W (mask W nb) (W / 2))) k =
    (k <? na) || ((k <? W) && ((W / 2 <=? k) && (k - W / 2 <? nb)))).
  { intros k. rewrite tb_or, tb_bs_shl, !tb_mask by lia. reflexivity. }
  split; [|split].
  - intros k Hk. rewrite T. destruct (Nat.ltb_spec k na), (Nat.ltb_spec k W); try lia; reflexivity.
  - intros p Hp. rewrite T. destruct (Nat.ltb_spec p na), (Nat.leb_spec (W/2) p); try lia.
    all: rewrite ?andb_false_r; cbn [orb andb]; split; intros HH0; try reflexivity; try lia; discriminate.
  - intros p Hp. rewrite T. replace (p + W / 2 - W / 2) with p by lia.
    destruct (Nat.ltb_spec (p + W/2) na), (Nat.ltb_spec (p + W/2) W),
      (Nat.leb_spec (W/2) (p + W/2)), (Nat.ltb_spec p nb); try lia; cbn [orb andb]; split; auto; lia || discriminate.
Qed.

(** ** ordering orbitals by energy, ties by index *)
Section ENERGY.
  Variable e : nat -> Qc.
  Notation precedes := (precedes e).

  Definition lt_e (i j : nat) : bool := qlt (e i) (e j).

  Lemma qlt_spec x y : reflect (x < y)%Qc (qlt x y).
  Proof.
    unfold qlt. destruct (Qclt_le_dec x y); constructor; auto. apply Qcle_not_lt, q.
  Qed.

  Lemma insert_In x l y : In y (insert_stable lt_e x l) <-> y = x \/ In y l.
  Proof.
    induction l as [|z l IH]; cbn [insert_stable In].
    - intuition.
    - destruct (lt_e z x); cbn [In]; rewrite ?IH; intuition.
  Qed.

  Lemma insert_perm x l : Permutation (insert_stable lt_e x l) (x :: l).
  Proof.
    induction l as [|z l IH]; cbn [insert_stable]; auto. destruct (lt_e z x); auto.
    rewrite IH. apply perm_swap.
  Qed.

  Lemma precedes_trans i j k : precedes i j -> precedes j k -> precedes i k.
  Proof.
    intros [H1|[H1 H1']] [H2|[H2 H2']]; unfold precedes.
    - left. eapply Qclt_trans; eauto.
    - left. rewrite <- H2. exact H1.
    - left. rewrite H1. exact H2.
    - right. split; [congruence|lia].
  Qed.

  Lemma insert_sorted x l : (forall y, In y l -> x < y) -> StronglySorted precedes l ->
    StronglySorted precedes (insert_stable lt_e x l).
  Proof.
    intros Hx Hs. induction Hs as [|y l Hs IH Hy]; cbn [insert_stable].
    - constructor; constructor.
    - unfold lt_e at 1. destruct (qlt_spec (e y) (e x)) as [L|L].
      + constructor; [apply IH; intros z Hz; apply Hx; right; exact Hz|].
        apply Forall_forall. intros z Hz. apply insert_In in Hz. destruct Hz as [->|Hz].
        * left. exact L.
        * rewrite Forall_forall in Hy. apply Hy, Hz.
      + assert (P : precedes x y).
        { apply Qcnot_lt_le in L. destruct (Qc_dec (e x) (e y)) as [[D|D]|D].
          - left; exact D.
          - exfalso. apply (Qclt_not_le _ _ D). exact L.
          - right. split; auto. apply Hx. left; reflexivity. }
        constructor; [constructor; auto|]. constructor; auto.
        rewrite Forall_forall in *. intros z Hz. eapply precedes_trans; eauto.
  Qed.

  Lemma sort_perm l : Permutation (stable_sort lt_e l) l.
  Proof.
    induction l as [|x l IH]; cbn [stable_sort fold_right]; auto.
    rewrite insert_perm. constructor. exact IH.
  Qed.

  Lemma sort_sorted l : StronglySorted lt l -> StronglySorted precedes (stable_sort lt_e l).
  Proof.
    induction 1 as [|x l Hl IH Hx]; cbn [stable_sort fold_right]; [constructor|].
    apply insert_sorted; auto. intros y Hy. rewrite Forall_forall in Hx. apply Hx.
    apply (Permutation_in _ (sort_perm l)). exact Hy.
  Qed.

  (** number of orbitals among the first [n] that come before [p] *)
  Definition precedes_b (i j : nat) : bool :=
    qlt (e i) (e j) || (negb (qlt (e j) (e i)) && (i <? j)).

  Lemma precedes_b_spec i j : reflect (precedes i j) (precedes_b i j).
  Proof.
    unfold precedes_b, precedes. destruct (qlt_spec (e i) (e j)) as [L|L]; cbn [orb].
    - constructor. auto.
    - destruct (qlt_spec (e j) (e i)) as [M|M]; cbn [negb andb].
      + constructor. intros [H|[H _]]; [auto|]. rewrite H in M. apply (Qclt_not_le _ _ M), Qcle_refl.
      + destruct (i <? j) eqn:Hij; constructor; [apply Nat.ltb_lt in Hij|apply Nat.ltb_ge in Hij].
        * right. split; auto. apply Qcnot_lt_le in L, M. apply Qcle_antisym; auto.
        * intros [H'|[_ H']]; [auto|lia].
  Qed.

  Definition rank (n p : nat) : nat := length (filter (fun q => precedes_b q p) (seq 0 n)).

  Lemma precedes_irrefl i : ~ precedes i i.
  Proof. intros [H|[_ H]]; [|lia]. apply (Qclt_not_le _ _ H), Qcle_refl. Qed.

  Lemma filter_none {A} (f : A -> bool) l : (forall x, In x l -> f x = false) -> filter f l = [].
  Proof.
    induction l as [|x l IH]; cbn [filter]; auto. intros H. rewrite H by (left; auto).
    apply IH. intros y Hy. apply H. right; auto.
  Qed.
  Lemma filter_all {A} (f : A -> bool) l : (forall x, In x l -> f x = true) -> filter f l = l.
  Proof.
    induction l as [|x l IH]; cbn [filter]; auto. intros H. rewrite H by (left; auto).
    f_equal. apply IH. intros y Hy. apply H. right; auto.
  Qed.

  Lemma sorted_app_inv l1 p l2 : StronglySorted precedes (l1 ++ p :: l2) ->
    (forall q, In q l1 -> precedes q p) /\ (forall q, In q l2 -> precedes p q).
  Proof.
    induction l1 as [|x l1 IH]; cbn [app]; intros H; inversion H; subst.
    - split; [intros q []|]. rewrite Forall_forall in H3. exact H3.
    - destruct (IH H2) as [A B]. split; auto. intros q [->|Hq]; auto.
      rewrite Forall_forall in H3. apply H3. apply in_or_app. right; left; auto.
  Qed.

  Lemma rank_position n l1 p l2 : stable_sort lt_e (seq 0 n) = l1 ++ p :: l2 ->
    rank n p = length l1.
  Proof.
    intros E. assert (Hs : StronglySorted precedes (l1 ++ p :: l2)).
    { rewrite <- E. apply sort_sorted, seq_sorted. }
    apply sorted_app_inv in Hs. destruct Hs as [A B]. unfold rank.
    assert (P : Permutation (seq 0 n) (l1 ++ p :: l2)) by (rewrite <- E; symmetry; apply sort_perm).
    assert (PF : forall (f : nat -> bool) l l', Permutation l l' ->
       length (filter f l) = length (filter f l')).
    { clear. induction 1; cbn [filter]; auto; try congruence.
      - destruct (f x); cbn [length]; auto.
      - destruct (f x), (f y); reflexivity. }
    rewrite (PF _ _ _ P), filter_app. cbn [filter].
    rewrite (filter_all _ l1), (filter_none _ l2).
    - destruct (precedes_b_spec p p) as [H|_]; [exfalso; exact (precedes_irrefl _ H)|].
      rewrite app_nil_r. reflexivity.
    - intros q Hq. destruct (precedes_b_spec q p) as [H|_]; auto.
      exfalso. apply (precedes_irrefl p). eapply precedes_trans; eauto.
    - intros q Hq. destruct (precedes_b_spec q p) as [_|H]; [reflexivity|exfalso; exact (H (A q Hq))].
  Qed.

  Lemma firstn_rank n k p : p < n ->
    In p (firstn k (stable_sort lt_e (seq 0 n))) <-> rank n p < k.
  Proof.
    intros Hp. set (l := stable_sort lt_e (seq 0 n)).
    assert (Hin : In p l).
    { apply (Permutation_in _ (Permutation_sym (sort_perm _))). apply in_seq. lia. }
    assert (Nl : NoDup l).
    { apply (Permutation_NoDup (Permutation_sym (sort_perm _))), seq_NoDup. }
    destruct (in_split p l Hin) as (l1 & l2 & E).
    rewrite (rank_position n l1 p l2 E). clearbody l. subst l.
    assert (N1 : ~ In p l1).
    { apply NoDup_remove_2 in Nl. intros H. apply Nl, in_or_app. auto. }
    rewrite firstn_app. split.
    - intros H. apply in_app_or in H. destruct H as [H|H].
      + exfalso. apply N1. rewrite <- (firstn_skipn k l1). apply in_or_app. auto.
      + destruct (k - length l1) eqn:D; [destruct H|lia].
    - intros H. apply in_or_app. right. destruct (k - length l1) eqn:D; [lia|].
      cbn [firstn]. left; reflexivity.
  Qed.
End ENERGY.

Lemma fill_ok W off : forall n idx bits, n <= length idx -> NoDup idx ->
  (forall p, In p idx -> p + off < W) ->
  exists r, fill_electrons W bits idx off n = Ok r /\
    forall k, tb r k = xorb (tb bits k) (existsb (fun p => k =? p + off) (firstn n idx)).
Proof.
  induction n as [|n IH]; intros idx bits Hn Nd Hp; cbn [fill_electrons].
  - eexists; split; [reflexivity|]. intros k. cbn. rewrite xorb_false_r. reflexivity.
  - destruct idx as [|p idx]; [cbn in Hn; lia|]. unfold bs_flip.
    assert (p + off < W) by (apply Hp; left; auto).
    destruct (Nat.ltb_spec (p + off) W); [|lia]. cbn [bind].
    inversion Nd as [|? ? Np Nd']; subst.
    destruct (IH idx (flipb bits (p + off))) as (r & E & T); auto.
    { cbn in Hn; lia. }
    { intros q Hq. apply Hp. right; auto. }
    exists r. split; auto. intros k. rewrite T, tb_flip. cbn [firstn existsb].
    destruct (Nat.eqb_spec k (p + off)); cbn [orb].
    + subst k. assert (X : existsb (fun p0 => p + off =? p0 + off) (firstn n idx) = false).
      { apply not_true_is_false. intros X. apply existsb_exists in X.
        destruct X as (q & Hq & Eq). apply Nat.eqb_eq in Eq. assert (p = q) by lia. subst.
        apply Np. rewrite <- (firstn_skipn n idx). apply in_or_app. auto. }
      rewrite X, xorb_false_r. reflexivity.
    + rewrite xorb_false_r. reflexivity.
Qed.

Lemma canonical_hf_ens_ok W na nb ens :
  Nat.even W = true -> length ens <= W / 2 -> na <= length ens -> nb <= length ens ->
  let e i := nth i ens 0%Qc in
  exists r, canonical_hf_ens W na nb ens = Ok r /\
    in_space W (length ens) r /\
    (forall p, p < length ens -> (tb r p = true <-> rank e (length ens) p < na)) /\
    (forall p, p < length ens -> (tb r (p + W / 2) = true <-> rank e (length ens) p < nb)).
Proof.
  intros HW Hl Ha Hb e. pose proof (even_half W HW) as HH. unfold canonical_hf_ens.
  change (fun i j => qlt (nth i ens 0%Qc) (nth j ens 0%Qc)) with (lt_e e).
  set (n := length ens) in *. set (idx := stable_sort (lt_e e) (seq 0 n)).
  assert (Pi : Permutation idx (seq 0 n)) by apply sort_perm.
  assert (Li : length idx = n) by (rewrite (Permutation_length Pi); apply seq_length).
  assert (Ni : NoDup idx) by (apply (Permutation_NoDup (Permutation_sym Pi)), seq_NoDup).
  assert (Bi : forall p, In p idx -> p < n).
  { intros p Hp. apply (Permutation_in _ Pi) in Hp. apply in_seq in Hp. lia. }
  destruct (fill_ok W 0 na idx 0%N) as (a & Ea & Ta); auto; try lia.
  { intros p Hp. specialize (Bi p Hp). lia. }
  destruct (fill_ok W (W/2) nb idx 0%N) as (b & Eb & Tb); auto; try lia.
  { intros p Hp. specialize (Bi p Hp). lia. }
  rewrite Ea, Eb. cbn [bind]. exists (N.lor a b). split; [reflexivity|].
  assert (Fb : forall m k p, In p (firstn m idx) -> k = p -> p < n).
  { intros m k p Hp _. apply Bi. rewrite <- (firstn_skipn m idx). apply in_or_app. auto. }
  assert (Xa : forall k, tb a k = true <-> In k (firstn na idx)).
  { intros k. rewrite Ta, tb_0, xorb_false_l, existsb_exists. split.
    - intros (p & Hp & E). apply Nat.eqb_eq in E. rewrite Nat.add_0_r in E. congruence.
    - intros H. exists k. split; auto. apply Nat.eqb_eq. lia. }
  assert (Xb : forall k, tb b k = true <-> exists p, In p (firstn nb idx) /\ k = p + W / 2).
  { intros k. rewrite Tb, tb_0, xorb_false_l, existsb_exists. split.
    - intros (p & Hp & E). apply Nat.eqb_eq in E. eauto.
    - intros (p & Hp & E). exists p. split; auto. apply Nat.eqb_eq. lia. }
  split; [|split].
  - split; intros k Hk; destruct (tb _ k) eqn:E; auto; exfalso.
    + unfold alpha in E. rewrite tb_mod, tb_or in E.
      apply andb_prop in E. destruct E as [E1 E2]. apply Nat.ltb_lt in E1.
      apply orb_prop in E2. destruct E2 as [E2|E2].
      * apply Xa in E2. pose proof (Fb _ k _ E2 eq_refl). lia.
      * apply Xb in E2. destruct E2 as (p & Hp & E2). lia.
    + unfold beta in E. rewrite tb_div, tb_or in E.
      apply orb_prop in E. destruct E as [E|E].
      * apply Xa in E. pose proof (Fb _ _ _ E eq_refl). lia.
      * apply Xb in E. destruct E as (p & Hp & E). pose proof (Fb _ _ _ Hp eq_refl). lia.
  - intros p Hp. rewrite tb_or, orb_true_iff, Xa, Xb.
    rewrite <- (firstn_rank e n na p Hp). fold idx. split; [|auto].
    intros [H|(q & Hq & E)]; auto. lia.
  - intros p Hp. rewrite tb_or, orb_true_iff, Xa, Xb.
    rewrite <- (firstn_rank e n nb p Hp). fold idx. split.
    + intros [H|(q & Hq & E)].
      * pose proof (Fb _ _ _ H eq_refl). lia.
      * assert (p = q) by lia. congruence.
    + intros H. right. eauto.
Qed.

(** ** canonical strings *)

Definition char_a (c : ascii) : bool := (c =? "2")%char || (c =? "u")%char.
Definition char_b (c : ascii) : bool := (c =? "2")%char || (c =? "d")%char.

Lemma tb_set W x i r : bs_set W x i = Ok r -> forall k, tb r k = tb x k || (k =? i).
Proof.
  unfold bs_set. destruct (i <? W); [|discriminate]. intros E k.
  assert (R : r = N.lor x (N.shiftl 1 (N.of_nat i))) by congruence.
  rewrite R, tb_or, tb_bit. reflexivity.
Qed.

Lemma bs_set_ok W x i : i < W -> exists r, bs_set W x i = Ok r.
Proof. intros H. unfold bs_set. destruct (Nat.ltb_spec i W); [eauto|lia]. Qed.

Lemma nth_cons_shift (f : ascii -> bool) (c : ascii) str i k :
  f "0"%char = false ->
  ((i <=? k) && f (nth (k - i) (c :: str) "0"%char)) =
  ((k =? i) && f c) || ((S i <=? k) && f (nth (k - S i) str "0"%char)).
Proof.
  intros Hf. destruct (Nat.eqb_spec k i).
  - subst. rewrite Nat.leb_refl, Nat.sub_diag. destruct (Nat.leb_spec (S i) i); [lia|].
    cbn [nth andb orb]. rewrite orb_false_r. reflexivity.
  - cbn [andb orb]. destruct (Nat.leb_spec i k), (Nat.leb_spec (S i) k); try lia; auto.
    cbn [andb]. replace (k - i) with (S (k - S i)) by lia. reflexivity.
Qed.

Lemma canon_loop_ok W str : forall i a b, i + length str <= W ->
  exists a' b', canon_loop W str i a b = Ok (a', b') /\
    (forall k, tb a' k = tb a k || ((i <=? k) && char_a (nth (k - i) str "0"%char))) /\
    (forall k, tb b' k = tb b k || ((i <=? k) && char_b (nth (k - i) str "0"%char))).
Proof.
  induction str as [|c str IH]; intros i a b H; cbn [canon_loop length] in *.
  - exists a, b. split; [reflexivity|]. split; intros k; destruct (k - i); cbn [nth];
    rewrite andb_false_r, orb_false_r; reflexivity.
  - assert (SA : forall x, exists r, bs_set W x i = Ok r) by (intros; apply bs_set_ok; lia).
    assert (Fin : forall x y xa xb, (forall k, tb x k = tb a k || ((k =? i) && xa)) ->
                  (forall k, tb y k = tb b k || ((k =? i) && xb)) ->
                  char_a c = xa -> char_b c = xb ->
      exists a' b', canon_loop W str (S i) x y = Ok (a', b') /\
      (forall k, tb a' k = tb a k || ((i <=? k) && char_a (nth (k - i) (c :: str) "0"%char))) /\
      (forall k, tb b' k = tb b k || ((i <=? k) && char_b (nth (k - i) (c :: str) "0"%char)))).
    { intros x y xa xb Hx Hy Ha Hb. destruct (IH (S i) x y) as (a' & b' & E & Ta & Tb); [lia|].
      exists a', b'. split; auto. split; intros k.
      - rewrite Ta, Hx, nth_cons_shift by reflexivity. rewrite Ha, orb_assoc. reflexivity.
      - rewrite Tb, Hy, nth_cons_shift by reflexivity. rewrite Hb, orb_assoc. reflexivity. }
    unfold char_a at 1, char_b at 1 in Fin.
    destruct ((c =? "2")%char) eqn:E2.
    + destruct (SA a) as [ra Ea]. destruct (SA b) as [rb Eb]. rewrite Ea, Eb. cbn [bind].
      apply (Fin ra rb true true); auto; intros k.
      * rewrite (tb_set _ _ _ _ Ea), andb_true_r. reflexivity.
      * rewrite (tb_set _ _ _ _ Eb), andb_true_r. reflexivity.
    + destruct ((c =? "u")%char) eqn:Eu.
      * destruct (SA a) as [ra Ea]. rewrite Ea. cbn [bind].
        assert (Ed : (c =? "d")%char = false).
        { apply Ascii.eqb_eq in Eu. subst c. reflexivity. }
        apply (Fin ra b true false); auto; intros k.
        -- rewrite (tb_set _ _ _ _ Ea), andb_true_r. reflexivity.
        -- rewrite andb_false_r, orb_false_r. reflexivity.
      * destruct ((c =? "d")%char) eqn:Ed.
        -- destruct (SA b) as [rb Eb]. rewrite Eb. cbn [bind].
           apply (Fin a rb false true); auto; intros k.
           ++ rewrite andb_false_r, orb_false_r. reflexivity.
           ++ rewrite (tb_set _ _ _ _ Eb), andb_true_r. reflexivity.
        -- apply (Fin a b false false); auto; intros k;
           rewrite andb_false_r, orb_false_r; reflexivity.
Qed.

Lemma from_string_ok W str : Nat.even W = true -> length str <= W / 2 ->
  exists r, from_canonical_string W str = Ok r /\ wf W r /\
    (forall p, p < W / 2 -> tb r p = char_a (nth p str "0"%char)) /\
    (forall p, p < W / 2 -> tb r (p + W / 2) = char_b (nth p str "0"%char)).
Proof.
  intros HW Hl. pose proof (even_half W HW) as HH. unfold from_canonical_string.
  destruct (canon_loop_ok W str 0 0 0) as (a & b & E & Ta & Tb); [lia|].
  rewrite E. cbn [bind fst snd]. eexists; split; [reflexivity|].
  assert (Ta' : forall k, tb a k = char_a (nth k str "0"%char)).
  { intros k. rewrite Ta, tb_0, Nat.sub_0_r. reflexivity. }
  assert (Tb' : forall k, tb b k = char_b (nth k str "0"%char)).
  { intros k. rewrite Tb, tb_0, Nat.sub_0_r. reflexivity. }
  assert (Wa : wf (W/2) a).
  { intros k Hk. rewrite Ta', nth_overflow by lia. reflexivity. }
  assert (T : forall k, tb (N.lor a (bs_shl W b (W/2))) k =
      tb a k || ((k <? W) && ((W/2 <=? k) && tb b (k - W/2)))).
  { intros k. rewrite tb_or, tb_bs_shl. reflexivity. }
  split; [|split].
  - intros k Hk. rewrite T, Wa by lia. destruct (Nat.ltb_spec k W); [lia|reflexivity].
  - intros p Hp. rewrite T. destruct (Nat.leb_spec (W/2) p); [lia|].
    rewrite andb_false_r, orb_false_r. auto.
  - intros p Hp. rewrite T, Wa by lia. replace (p + W/2 - W/2) with p by lia.
    destruct (Nat.ltb_spec (p + W/2) W), (Nat.leb_spec (W/2) (p + W/2)); try lia.
    cbn [andb orb]. auto.
Qed.

Lemma to_string_length W s : length (to_canonical_string W s) = W / 2.
Proof. unfold to_canonical_string. rewrite map_length, seq_length. reflexivity. Qed.

Lemma to_string_nth W s p : spin_width W -> p < W / 2 ->
  nth p (to_canonical_string W s) "0"%char = orb_char (tb s p) (tb s (p + W / 2)).
Proof.
  intros HW Hp. unfold to_canonical_string.
  set (f := fun i => orb_char (tb (bitset_lo_word W s) i) (tb (bitset_hi_word W s) i)).
  rewrite (nth_indep _ _ (f 0)) by (rewrite map_length, seq_length; auto).
  rewrite map_nth, seq_nth by auto. unfold f. cbn [plus].
  rewrite tb_lo, tb_hi by auto. destruct (Nat.ltb_spec p (W/2)); [reflexivity|lia].
Qed.

Lemma char_orb_a a b : char_a (orb_char a b) = a. Proof. destruct a, b; reflexivity. Qed.
Lemma char_orb_b a b : char_b (orb_char a b) = b. Proof. destruct a, b; reflexivity. Qed.

Lemma from_to_string W s : spin_width W -> wf W s ->
  from_canonical_string W (to_canonical_string W s) = Ok s.
Proof.
  intros HW Hs. pose proof (spin_width_half W HW) as HH.
  destruct (from_string_ok W (to_canonical_string W s)) as (r & E & Wr & Ta & Tb).
  { apply spin_width_even, HW. }
  { rewrite to_string_length. auto. }
  rewrite E. f_equal. apply tb_ext. intros k.
  destruct (Nat.ltb_spec k (W/2)).
  - rewrite Ta, to_string_nth, char_orb_a by auto. reflexivity.
  - destruct (Nat.ltb_spec k W).
    + replace k with ((k - W/2) + W/2) by lia.
      rewrite Tb, to_string_nth, char_orb_b by (auto; lia). reflexivity.
    + rewrite Wr, Hs by auto. reflexivity.
Qed.

(** the four canonical characters *)
Definition canon_char (c : ascii) : Prop :=
  c = "0"%char \/ c = "u"%char \/ c = "d"%char \/ c = "2"%char.

Lemma to_from_string W str r : spin_width W -> length str <= W / 2 ->
  (forall c, In c str -> canon_char c) ->
  from_canonical_string W str = Ok r ->
  to_canonical_string W r = str ++ repeat "0"%char (W / 2 - length str).
Proof.
  intros HW Hl Hc E. destruct (from_string_ok W str) as (r' & E' & Wr & Ta & Tb).
  { apply spin_width_even, HW. } { exact Hl. }
  rewrite E in E'. injection E' as <-.
  apply nth_ext with (d := "0"%char) (d' := "0"%char).
  - rewrite to_string_length, app_length, repeat_length. lia.
  - intros p Hp. rewrite to_string_length in Hp. rewrite to_string_nth by auto.
    rewrite Ta, Tb by auto.
    assert (G : nth p (str ++ repeat "0"%char (W / 2 - length str)) "0"%char = nth p str "0"%char).
    { destruct (Nat.ltb_spec p (length str)).
      - apply app_nth1. auto.
      - rewrite app_nth2 by auto. rewrite nth_repeat. symmetry. apply nth_overflow. auto. }
    rewrite G.
    assert (Hcp : canon_char (nth p str "0"%char)).
    { destruct (Nat.ltb_spec p (length str)).
      - apply Hc, nth_In. auto.
      - rewrite nth_overflow by auto. left; reflexivity. }
    destruct Hcp as [->|[->|[->| ->]]]; reflexivity.
Qed.

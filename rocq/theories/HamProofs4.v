(** matrix_element equals the second-quantised Hamiltonian. *)
From Coq Require Import QArith Qcanon Sorting.Permutation.
From Verif Require Import Base Bits BitsProofs SD Spec SDProofs SDProofs2 SDProofs4 SDProofs5 Sums
  FockSpec FockProofs SlaterCondon Ham HamProofs HamProofs2 HamProofs3.
Local Open Scope nat_scope.

Lemma three_in (l : list nat) : NoDup l -> 3 <= length l ->
  exists a b c, a <> b /\ a <> c /\ b <> c /\ In a l /\ In b l /\ In c l.
Proof.
  intros H L. destruct l as [|a [|b [|c l]]]; cbn in L; try lia.
  exists a, b, c. apply NoDup_cons_iff in H. destruct H as [H1 H]. apply NoDup_cons_iff in H.
  destruct H as [H2 _]. cbn in *. intuition.
Qed.

Lemma moves_ldiff_list k s t : moves k s t ->
  exists l, NoDup l /\ (forall i, In i l <-> tb s i = true /\ tb t i = false) /\ length l = k.
Proof.
  intros [(l & A & B & C) _]. exists l. split; [|split]; auto. intros i. rewrite B, tb_ldiff.
  destruct (tb s i), (tb t i); cbn; intuition discriminate.
Qed.

Lemma positions_wf n M x : n <= M -> wf n x -> positions M x = positions n x.
Proof.
  intros H Wx. unfold positions. replace M with (n + (M - n)) by lia. rewrite seq_app, filter_app.
  rewrite (filter_none (tb x) (seq (0 + n) (M - n))); [apply app_nil_r|].
  intros a Ha. apply in_seq in Ha. apply Wx. lia.
Qed.

Lemma in_space_wf W n x : spin_width W -> n <= W / 2 -> in_space W n x -> wf W x.
Proof.
  intros HW Hn [A B] i Hi. pose proof (spin_width_half W HW).
  destruct (so_cover W i) as (s & p & -> & C). rewrite tb_str by auto.
  destruct s; cbn [so str] in *; [apply B|apply A]; lia.
Qed.

Lemma lo_xor W a b : spin_width W ->
  bitset_lo_word W (N.lxor a b) = N.lxor (bitset_lo_word W a) (bitset_lo_word W b).
Proof.
  intros HW. apply tb_ext. intros i. rewrite tb_xor, !tb_lo, tb_xor by auto.
  destruct (i <? W/2); reflexivity.
Qed.
Lemma hi_xor W a b : spin_width W -> wf W a -> wf W b ->
  bitset_hi_word W (N.lxor a b) = N.lxor (bitset_hi_word W a) (bitset_hi_word W b).
Proof.
  intros HW A B. assert (C : wf W (N.lxor a b)).
  { intros i Hi. rewrite tb_xor, A, B by auto. reflexivity. }
  rewrite <- !beta_hi by auto. apply tb_ext. intros i. unfold beta.
  rewrite tb_xor, !tb_div, tb_xor. reflexivity.
Qed.

Section MAIN2.
  Variables (W : nat) (HW : spin_width W) (h : ints).
  Notation n := (norb h).
  Hypothesis Hn : n <= W / 2.
  Hypothesis Vsym : forall p q r s, p < n -> q < n -> r < n -> s < n ->
    V_pqrs h p q r s = V_pqrs h r s p q.
  Variables (bra ket : N).
  Hypothesis (Sb : in_space W n bra) (Sk : in_space W n ket).

  Lemma bra_eq : alpha W bra = alpha W ket -> beta W bra = beta W ket -> bra = ket.
  Proof.
    intros A B. apply tb_ext. intros k. destruct (so_cover W k) as (s & p & -> & C).
    rewrite !tb_str by auto. destruct s; cbn [str]; congruence.
  Qed.

  Lemma ham_far ka kb : moves ka (alpha W ket) (alpha W bra) -> moves kb (beta W ket) (beta W bra) ->
    3 <= ka + kb -> ham W n (T_pq h) (V_pqrs h) bra ket = 0%Qc.
  Proof.
    intros Ma Mb Hk. rewrite ham_E by auto.
    destruct (moves_ldiff_list _ _ _ Ma) as (la & Na & Ia & La).
    destruct (moves_ldiff_list _ _ _ Mb) as (lb & Nb & Ib & Lb).
    destruct Sk as [Wa Wb].
    assert (Xa : forall p, In p la -> p < n).
    { intros p Hp. apply Ia in Hp. destruct (Nat.ltb_spec p n); auto. rewrite Wa in Hp by auto. destruct Hp; discriminate. }
    assert (Xb : forall p, In p lb -> p < n).
    { intros p Hp. apply Ib in Hp. destruct (Nat.ltb_spec p n); auto. rewrite Wb in Hp by auto. destruct Hp; discriminate. }
    assert (ND : NoDup (map (so W false) la ++ map (so W true) lb)).
    { apply NoDup_app.
      - apply NoDup_map_inj; auto.
      - apply NoDup_map_inj; auto. intros x y _ _. unfold so. lia.
      - intros x A B. apply in_map_iff in A. apply in_map_iff in B.
        destruct A as (p & <- & A), B as (q & E & B). unfold so in E. apply Xa in A. lia. }
    destruct (three_in _ ND) as (a & b & c & D1 & D2 & D3 & I1 & I2 & I3).
    { rewrite app_length, !map_length. lia. }
    assert (K : forall x, In x (map (so W false) la ++ map (so W true) lb) -> tb ket x = true /\ tb bra x = false).
    { intros x Hx. apply in_app_iff in Hx. rewrite !in_map_iff in Hx.
      destruct Hx as [(p & <- & Hp)|(p & <- & Hp)].
      - pose proof (Xa p Hp). apply Ia in Hp. rewrite !tb_str by lia. exact Hp.
      - apply Ib in Hp. rewrite !tb_str by auto. exact Hp. }
    destruct (K a I1), (K b I2), (K c I3).
    rewrite (E1_zero _ (SO_NoDup W n Hn) _ bra ket a b) by auto.
    rewrite (E2_zero _ (SO_NoDup W n Hn) _ bra ket a b c) by auto. ring.
  Qed.

  Lemma matrix_element_spin_ok na nb :
    size_is (alpha W bra) na -> size_is (alpha W ket) na ->
    size_is (beta W bra) nb -> size_is (beta W ket) nb ->
    matrix_element_spin h (W / 2) (alpha W bra) (alpha W ket) (N.lxor (alpha W bra) (alpha W ket))
      (beta W bra) (beta W ket) (N.lxor (beta W bra) (beta W ket))
      (positions n (alpha W bra)) (positions n (beta W bra)) =
    Ok (ham W n (T_pq h) (V_pqrs h) bra ket).
  Proof.
    intros Ab Ak Bb Bk.
    destruct (moves_exists _ _ _ Ak Ab) as [ka Ma]. destruct (moves_exists _ _ _ Bk Bb) as [kb Mb].
    unfold matrix_element_spin. rewrite (count_xor_moves ka), (count_xor_moves kb) by auto.
    destruct Sk as [Wa Wb].
    assert (LTa : forall p, tb (alpha W ket) p = true -> p < n).
    { intros p Hp. destruct (Nat.ltb_spec p n); auto. rewrite Wa in Hp by auto. discriminate. }
    assert (LTb : forall p, tb (beta W ket) p = true -> p < n).
    { intros p Hp. destruct (Nat.ltb_spec p n); auto. rewrite Wb in Hp by auto. discriminate. }
    assert (LTa' : forall p, tb (alpha W bra) p = true -> p < n).
    { intros p Hp. destruct (Nat.ltb_spec p n); auto. rewrite (proj1 Sb) in Hp by auto. discriminate. }
    assert (LTb' : forall p, tb (beta W bra) p = true -> p < n).
    { intros p Hp. destruct (Nat.ltb_spec p n); auto. rewrite (proj2 Sb) in Hp by auto. discriminate. }
    destruct (Nat.ltb_spec 4 (2 * ka + 2 * kb)) as [Hf|Hf].
    { rewrite (ham_far ka kb) by (auto; lia). reflexivity. }
    assert (C2 : forall s t i a, tb s i = true -> tb s a = false -> t = flip2 s (i, a) ->
                 tb t a = true).
    { intros s t i a A B ->. unfold flip2. cbn [fst snd]. rewrite !tb_flip, B, Nat.eqb_refl.
      destruct (Nat.eqb_spec a i); [congruence|reflexivity]. }
    assert (C4 : forall s t i a j b, tb s i = true -> tb s j = true -> tb s a = false -> tb s b = false ->
                 a < b -> t = flip4 s (i, a, j, b) -> tb t a = true /\ tb t b = true).
    { intros s t i a j b A B C D L ->. rewrite !flip4_bits, C, D, !Nat.eqb_refl.
      destruct (Nat.eqb_spec a i), (Nat.eqb_spec a j), (Nat.eqb_spec a b), (Nat.eqb_spec b i),
        (Nat.eqb_spec b j), (Nat.eqb_spec b a); try congruence; try lia; auto. }
    destruct ka as [|[|[|ka]]]; [| | |lia].
    - apply moves_0 in Ma. destruct kb as [|[|[|kb]]]; [| | |lia]; cbn [Nat.mul Nat.add Nat.eqb andb].
      + apply moves_0 in Mb. apply me_diag; auto. apply bra_eq; auto.
      + apply moves_1 in Mb. destruct Mb as (o & v & To & Tv & E).
        apply (me_single W h Hn Vsym bra ket Sb Sk true o v); auto.
        apply LTb'. apply (C2 _ _ _ _ To Tv E).
      + apply moves_2 in Mb. destruct Mb as (i & a & j & b & (Ti & Tj & L1) & (Ta & Tb & L2) & E).
        destruct (C4 _ _ _ _ _ _ Ti Tj Ta Tb L2 E).
        apply (me_double_same W h Hn Vsym bra ket Sb Sk true i a j b); auto.
    - apply moves_1 in Ma. destruct Ma as (o & v & To & Tv & E).
      pose proof (C2 _ _ _ _ To Tv E) as Tv'.
      destruct kb as [|[|kb]]; [| |lia]; cbn [Nat.mul Nat.add Nat.eqb andb].
      + apply moves_0 in Mb.
        apply (me_single W h Hn Vsym bra ket Sb Sk false o v); auto.
      + apply moves_1 in Mb. destruct Mb as (o2 & v2 & To2 & Tv2 & E2).
        pose proof (C2 _ _ _ _ To2 Tv2 E2) as Tv2'.
        apply (me_double_mixed W h Hn Vsym bra ket Sb Sk o v o2 v2); auto.
    - destruct kb as [|kb]; [|lia]. apply moves_0 in Mb. cbn [Nat.mul Nat.add Nat.eqb andb].
      apply moves_2 in Ma. destruct Ma as (i & a & j & b & (Ti & Tj & L1) & (Ta & Tb & L2) & E).
      destruct (C4 _ _ _ _ _ _ Ti Tj Ta Tb L2 E).
      apply (me_double_same W h Hn Vsym bra ket Sb Sk false i a j b); auto.
  Qed.

  Lemma matrix_element_ok na nb :
    size_is (alpha W bra) na -> size_is (alpha W ket) na ->
    size_is (beta W bra) nb -> size_is (beta W ket) nb ->
    matrix_element W h bra ket = Ok (ham W n (T_pq h) (V_pqrs h) bra ket).
  Proof.
    intros Ab Ak Bb Bk.
    assert (Wb : wf W bra) by (eapply in_space_wf; eauto).
    assert (Wk : wf W ket) by (eapply in_space_wf; eauto).
    unfold matrix_element. rewrite <- !alpha_lo, <- !beta_hi by auto.
    rewrite !bits_to_indices_ok.
    2:{ eapply wf_le; [|apply (proj2 Sb)]. auto. }
    2:{ eapply wf_le; [|apply (proj1 Sb)]. auto. }
    cbn [bind]. rewrite (positions_wf n (W / 2) (alpha W bra)), (positions_wf n (W / 2) (beta W bra)) by (auto; apply Sb).
    apply matrix_element_spin_ok with (na := na) (nb := nb); auto.
  Qed.
End MAIN2.

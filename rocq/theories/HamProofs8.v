(** Reduced density matrices over determinant lists (C19-C21). *)
From Coq Require Import QArith Qcanon Sorting.Permutation.
From Verif Require Import Base Bits BitsProofs SD Spec SDProofs SDProofs2 SDProofs4 SDProofs5 Sums
  FockSpec FockProofs SlaterCondon Ham HamProofs HamProofs2 HamProofs3 HamProofs4 HamProofs5 HamProofs7.
Local Open Scope nat_scope.

(** c_i c_j <i|H|j> over the pairs whose coefficient product is above 1e-16 *)
Definition kept (x : Qc) : bool := abs_gt x rdm_cutoff.
Definition expect (W n : nat) (T : mat2) (V : mat4) (bras kets : list (N * Qc)) : Qc :=
  sum bras (fun b => sum kets (fun k =>
    if kept (snd b * snd k) then (snd b * snd k * ham W n T V (fst b) (fst k))%Qc else 0%Qc)).

Lemma count_zero x : bs_count x = 0 -> x = 0%N.
Proof.
  intros H. apply tb_ext. intros i. rewrite tb_0. destruct (tb x i) eqn:E; auto.
  assert (S : size_is x 0) by (apply size_is_count; auto).
  destruct S as (l & _ & I & L). apply I in E. destruct l; [destruct E|discriminate].
Qed.

Section RDM2.
  Variables (W : nat) (HW : spin_width W) (n : nat).
  Hypothesis Hn : n <= W / 2.
  Variables (na nb : nat).
  Notation good := (good W n na nb).

  Lemma good_count x : good x -> bs_count x = na + nb.
  Proof.
    intros G. rewrite (count_split W); auto.
    - destruct G as (_ & A & B). apply size_is_count in A, B. lia.
    - eapply good_wf; eauto.
  Qed.

  Lemma ham_vacuum T V : eri_symmetric n V -> good 0%N -> ham W n T V 0 0 = 0%Qc.
  Proof.
    intros Sy G. destruct (G) as (S & A & B).
    assert (X : matrix_element_spin (mk_ints n T V) (W/2) (alpha W 0) (alpha W 0) (N.lxor (alpha W 0) (alpha W 0))
       (beta W 0) (beta W 0) (N.lxor (beta W 0) (beta W 0)) (positions n (alpha W 0)) (positions n (beta W 0))
       = Ok (ham W n T V 0 0)).
    { apply (matrix_element_spin_ok W (mk_ints n T V) Hn) with (na := na) (nb := nb); auto.
      intros p q r s P Q R Q'. apply Sy; auto. }
    assert (Za : alpha W 0 = 0%N).
    { apply tb_ext. intros i. unfold alpha. rewrite tb_mod, tb_0. destruct (i <? W/2); reflexivity. }
    assert (Zb : beta W 0 = 0%N).
    { apply tb_ext. intros i. unfold beta. rewrite tb_div, !tb_0. reflexivity. }
    rewrite Za, Zb in X. rewrite N.lxor_0_r in X.
    assert (Zp : positions n 0 = []).
    { apply filter_none. intros i _. apply tb_0. }
    rewrite Zp in X. cbn in X. congruence.
  Qed.

  Definition conn (b k : N) := bs_count (N.lxor b k) <> 4.

  Lemma rdm_pair_ok bra ci ket cj D1 D2 : good bra -> good ket ->
    exists D1' D2',
    rdm_pair W n (positions n (alpha W bra)) (positions n (beta W bra)) bra ci (D1, Some D2) (ket, cj)
      = Ok (D1', Some D2') /\
    (conn bra ket ->
     rdm_pair W n (positions n (alpha W bra)) (positions n (beta W bra)) bra ci (D1, None) (ket, cj)
      = Ok (D1', None)) /\
    forall T V, eri_symmetric n V ->
      (c2 n T D1' + c4 n V D2' = c2 n T D1 + c4 n V D2 +
        (if kept (ci * cj) then ci * cj * ham W n T V bra ket else 0))%Qc.
  Proof.
    intros Gb Gk. unfold rdm_pair.
    destruct (Nat.eqb_spec (bs_count ket) 0) as [Z|NZ].
    { exists D1, D2. split; [reflexivity|]. split; [reflexivity|]. intros T V Sy.
      pose proof (good_count _ Gb) as Cb. rewrite <- (good_count _ Gk), Z in Cb.
      apply count_zero in Z, Cb. subst. rewrite (ham_vacuum T V Sy Gk).
      destruct (kept (ci * cj)); ring. }
    destruct (rdm_contributions_ok W HW n Hn na nb bra ket (ci * cj) D1 D2 Gb Gk) as (D1' & D2' & E1 & E2 & E3).
    pose proof (good_wf W HW n Hn na nb bra Gb) as Wb. pose proof (good_wf W HW n Hn na nb ket Gk) as Wk.
    cbn [fst snd]. rewrite lo_xor, hi_xor, <- !alpha_lo, <- !beta_hi by auto.
    destruct (Nat.leb_spec (bs_count (N.lxor bra ket)) 4) as [L|L].
    - fold (kept (ci * cj)). destruct (kept (ci * cj)).
      + exists D1', D2'. split; [exact E1|]. split; [exact E2|]. exact E3.
      + exists D1, D2. split; [reflexivity|]. split; [reflexivity|]. intros; ring.
    - exists D1, D2. split; [reflexivity|]. split; [reflexivity|]. intros T V Sy.
      assert (HZ : ham W n T V bra ket = 0%Qc).
      { assert (X : Ok (ham W n T V bra ket) = Ok 0%Qc).
        { destruct Gb as (Sb & Ab & Bb), Gk as (Sk & Ak & Bk).
          rewrite <- (me_far W (mk_ints n T V) bra ket (bs_count (N.lxor bra ket))); auto.
          - symmetry. apply (matrix_element_ok W HW (mk_ints n T V) Hn) with (na := na) (nb := nb); auto.
            intros p q r s P Q R Q'. apply Sy; auto.
          - apply size_is_count. reflexivity. }
        congruence. }
      rewrite HZ. destruct (kept (ci * cj)); ring.
  Qed.

  Lemma rdm_row_ok bra ci : good bra -> forall kets, (forall k, In k kets -> good (fst k)) ->
    forall D1 D2, exists D1' D2',
    foldM kets (rdm_pair W n (positions n (alpha W bra)) (positions n (beta W bra)) bra ci) (D1, Some D2)
      = Ok (D1', Some D2') /\
    ((forall k, In k kets -> conn bra (fst k)) ->
     foldM kets (rdm_pair W n (positions n (alpha W bra)) (positions n (beta W bra)) bra ci) (D1, None)
      = Ok (D1', None)) /\
    forall T V, eri_symmetric n V ->
      (c2 n T D1' + c4 n V D2' = c2 n T D1 + c4 n V D2 +
        sum kets (fun k => if kept (ci * snd k) then ci * snd k * ham W n T V bra (fst k) else 0))%Qc.
  Proof.
    intros Gb. induction kets as [|[ket cj] kets IH]; intros Gk D1 D2; cbn [foldM sum].
    - exists D1, D2. split; [reflexivity|]. split; [reflexivity|]. intros; ring.
    - destruct (rdm_pair_ok bra ci ket cj D1 D2 Gb (Gk _ (or_introl eq_refl))) as (A1 & A2 & E1 & E2 & E3).
      destruct (IH (fun k Hk => Gk k (or_intror Hk)) A1 A2) as (B1 & B2 & F1 & F2 & F3).
      exists B1, B2. rewrite E1. cbn [bind]. split; [exact F1|]. split.
      + intros C. rewrite E2 by (apply (C (ket, cj)); left; auto). cbn [bind].
        apply F2. intros k Hk. apply C. right. auto.
      + intros T V Sy. rewrite (F3 T V Sy), (E3 T V Sy). cbn [fst snd]. ring.
  Qed.

  Lemma form_rdms_ok kets : (forall k, In k kets -> good (fst k)) ->
    forall bras, (forall b, In b bras -> good (fst b)) ->
    forall D1 D2, exists D1' D2',
    form_rdms W n bras kets (D1, Some D2) = Ok (D1', Some D2') /\
    ((forall b k, In b bras -> In k kets -> conn (fst b) (fst k)) ->
     form_rdms W n bras kets (D1, None) = Ok (D1', None)) /\
    forall T V, eri_symmetric n V ->
      (c2 n T D1' + c4 n V D2' = c2 n T D1 + c4 n V D2 + expect W n T V bras kets)%Qc.
  Proof.
    intros Gk. unfold form_rdms, expect. induction bras as [|[bra ci] bras IH]; intros Gb D1 D2; cbn [foldM sum].
    - exists D1, D2. split; [reflexivity|]. split; [reflexivity|]. intros; ring.
    - pose proof (Gb _ (or_introl eq_refl)) as G. cbn [fst] in G.
      assert (X : exists A1 A2,
        (if bs_count bra =? 0 then Ok (D1, Some D2)
         else do oa <- bits_to_indices (W / 2) (bitset_lo_word W bra);
              do ob <- bits_to_indices (W / 2) (bitset_hi_word W bra);
              foldM kets (rdm_pair W n oa ob bra ci) (D1, Some D2)) = Ok (A1, Some A2) /\
        ((forall k, In k kets -> conn bra (fst k)) ->
         (if bs_count bra =? 0 then Ok (D1, None)
         else do oa <- bits_to_indices (W / 2) (bitset_lo_word W bra);
              do ob <- bits_to_indices (W / 2) (bitset_hi_word W bra);
              foldM kets (rdm_pair W n oa ob bra ci) (D1, None)) = Ok (A1, None)) /\
        forall T V, eri_symmetric n V ->
          (c2 n T A1 + c4 n V A2 = c2 n T D1 + c4 n V D2 +
            sum kets (fun k => if kept (ci * snd k) then ci * snd k * ham W n T V bra (fst k) else 0))%Qc).
      { destruct (Nat.eqb_spec (bs_count bra) 0) as [Z|NZ].
        - exists D1, D2. split; [reflexivity|]. split; [reflexivity|]. intros T V Sy.
          rewrite sum_zero; [ring|]. intros [ket cj] Hk. apply Gk in Hk. cbn [fst snd] in *.
          pose proof (good_count _ Hk) as Ck. rewrite <- (good_count _ G), Z in Ck.
          apply count_zero in Z, Ck. subst. rewrite (ham_vacuum T V Sy Hk).
          destruct (kept (ci * cj)); ring.
        - pose proof (good_wf W HW n Hn na nb bra G) as Wb.
          rewrite <- !alpha_lo, <- !beta_hi by auto. destruct (G) as ([Sa Sb] & _).
          rewrite !bits_to_indices_ok by (eapply wf_le; eauto). cbn [bind].
          rewrite (positions_wf n (W / 2) (alpha W bra)), (positions_wf n (W / 2) (beta W bra)) by auto.
          apply rdm_row_ok; auto. }
      destruct X as (A1 & A2 & E1 & E2 & E3).
      destruct (IH (fun k Hk => Gb k (or_intror Hk)) A1 A2) as (B1 & B2 & F1 & F2 & F3).
      exists B1, B2. split; [|split].
      + rewrite E1. cbn [bind]. exact F1.
      + intros C. rewrite E2. { cbn [bind]. apply F2. intros b k Hb Hk. apply C; auto. right; auto. }
        intros k Hk. apply (C (bra, ci)); auto. left; auto.
      + intros T V Sy. rewrite (F3 T V Sy), (E3 T V Sy). cbn [fst snd]. ring.
  Qed.

  Definition zero2 : mat2 := fun _ _ => 0%Qc.
  Definition zero4 : mat4 := fun _ _ _ _ => 0%Qc.

  Lemma c2_ind D p q : p < n -> q < n ->
    c2 n (fun a b => if (a =? p) && (b =? q) then 1%Qc else 0%Qc) D = D p q.
  Proof.
    intros Hp Hq. unfold c2.
    rewrite <- (sum_ind n p (fun a => D a q)) by auto. apply sum_ext. intros a _.
    destruct (a =? p); cbn [andb].
    - rewrite <- (sum_ind n q (fun b => D a b)) by auto. apply sum_ext. intros b _.
      destruct (b =? q); ring.
    - apply sum_zero. intros. ring.
  Qed.

  Lemma two_body_zero b k : two_body W n (fun _ _ _ _ => 0%Qc) b k = 0%Qc.
  Proof. unfold two_body. repeat (apply sum_zero; intros). ring. Qed.

  (** entries of the one-body RDM *)
  Lemma ordm_entry bras kets p q : p < n -> q < n ->
    expect W n (fun a b => if (a =? p) && (b =? q) then 1%Qc else 0%Qc) (fun _ _ _ _ => 0%Qc) bras kets =
    sum bras (fun b => sum kets (fun k =>
      if kept (snd b * snd k) then (snd b * snd k *
        sum spins (fun s => braket (fst b) [Cre (so W s p); Ann (so W s q)] (fst k)))%Qc else 0%Qc)).
  Proof.
    intros Hp Hq. unfold expect. apply sum_ext. intros b _. apply sum_ext. intros k _.
    destruct (kept (snd b * snd k)); auto. f_equal. unfold ham. rewrite two_body_zero.
    unfold one_body. rewrite Qcmult_0_r, Qcplus_0_r. apply sum_ext. intros s _.
    rewrite <- (sum_ind n p (fun a => braket (fst b) [Cre (so W s a); Ann (so W s q)] (fst k))) by auto.
    apply sum_ext. intros a _. destruct (a =? p); cbn [andb].
    - rewrite <- (sum_ind n q (fun c => braket (fst b) [Cre (so W s a); Ann (so W s c)] (fst k))) by auto.
      apply sum_ext. intros c _. destruct (c =? q); ring.
    - apply sum_zero. intros. ring.
  Qed.

  Lemma zero_sym : eri_symmetric n (fun _ _ _ _ => 0%Qc).
  Proof. intros p q r s _ _ _ _. auto. Qed.

  (** trace *)
  Lemma number_op b k : good b -> good k ->
    sum (seq 0 n) (fun p => sum spins (fun s => braket b [Cre (so W s p); Ann (so W s p)] k)) =
    if (b =? k)%N then inject (na + nb) else 0%Qc.
  Proof.
    intros Gb Gk.
    assert (B : forall x, braket b [Cre x; Ann x] k = if (b =? k)%N then (if tb k x then 1%Qc else 0%Qc) else 0%Qc).
    { intros x. rewrite braket1_val. unfold ok1. rewrite tb_flip, Nat.eqb_refl.
      assert (F : flipb (flipb k x) x = k).
      { apply tb_ext. intros i. rewrite !tb_flip. destruct (tb k i), (i =? x); reflexivity. }
      rewrite F. rewrite N.eqb_sym. destruct (tb k x) eqn:T; cbn [negb andb xorb].
      - destruct (N.eqb_spec b k); auto. unfold sg1. rewrite Nat.ltb_irrefl, xorb_false_r, xorb_nilpotent. reflexivity.
      - destruct (b =? k)%N; reflexivity. }
    destruct (b =? k)%N eqn:E.
    2:{ apply sum_zero. intros p _. apply sum_zero. intros s _. rewrite B. reflexivity. }
    rewrite sum_swap.
    assert (G : forall s, sum (seq 0 n) (fun p => braket b [Cre (so W s p); Ann (so W s p)] k) =
                          inject (length (positions n (str W s k)))).
    { intros s. unfold positions. rewrite (sum_ext _ _ (fun p => if tb (str W s k) p then 1%Qc else 0%Qc)).
      2:{ intros p Hp. apply in_seq in Hp. rewrite B, tb_str by lia. reflexivity. }
      rewrite <- sum_filter. generalize (filter (tb (str W s k)) (seq 0 n)). intros l.
      induction l as [|a l IH]; cbn [sum length]; [reflexivity|]. rewrite IH, inject_S. reflexivity. }
    rewrite (sum_ext spins _ (fun s => inject (length (positions n (str W s k))))) by (intros; apply G).
    cbn [sum spins]. rewrite Qcplus_0_r. destruct Gk as ([Wa Wb] & A & C). cbn [str].
    rewrite <- !count_positions by auto. apply size_is_count in A, C. rewrite A, C.
    symmetry. apply inject_plus.
  Qed.
End RDM2.

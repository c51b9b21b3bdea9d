(** The code's matrix elements equal the second-quantised ones, part 3. *)
From Coq Require Import QArith Qcanon Sorting.Permutation.
From Verif Require Import Base Bits BitsProofs SD Spec SDProofs SDProofs2 SDProofs4 SDProofs5 Sums
  FockSpec FockProofs SlaterCondon Ham HamProofs HamProofs2.
Local Open Scope nat_scope.


Lemma tb_str W sg x p : sg = true \/ p < W / 2 -> tb x (so W sg p) = tb (str W sg x) p.
Proof.
  intros H. unfold so, str. destruct sg.
  - unfold beta. rewrite tb_div. reflexivity.
  - destruct H as [H|H]; [discriminate|]. unfold alpha. rewrite tb_mod.
    destruct (Nat.ltb_spec p (W/2)); [reflexivity|lia].
Qed.

Lemma so_cover W k : exists sg p, k = so W sg p /\ (sg = true \/ p < W / 2).
Proof.
  destruct (Nat.ltb_spec k (W/2)).
  - exists false, k. auto.
  - exists true, (k - W/2). unfold so. split; [lia|auto].
Qed.

Lemma so_eqb W t p s o : (t = true \/ p < W / 2) -> o < W / 2 ->
  (so W t p =? so W s o) = eqb t s && (p =? o).
Proof.
  intros H Ho. unfold so. destruct t, s; cbn [eqb andb].
  - destruct (Nat.eqb_spec (p + W/2) (o + W/2)), (Nat.eqb_spec p o); try lia; reflexivity.
  - apply Nat.eqb_neq. lia.
  - destruct H as [H|H]; [discriminate|]. apply Nat.eqb_neq. lia.
  - reflexivity.
Qed.

Definition cpar (W : nat) (sg : bool) (x : N) : bool :=
  if sg then parity_below x (W / 2) else false.

Lemma parity_so W sg x p : p < W / 2 ->
  parity_below x (so W sg p) = xorb (cpar W sg x) (parity_below (str W sg x) p).
Proof.
  induction p as [|p IH]; intros Hp.
  - assert (Z : forall y, parity_below y 0 = false) by reflexivity.
    unfold cpar, so. rewrite (Z (str W sg x)), xorb_false_r. destruct sg; cbn [plus]; [reflexivity|apply Z].
  - rewrite parity_below_S. unfold so in *.
    assert (B : tb x (so W sg p) = tb (str W sg x) p) by (apply tb_str; right; lia).
    unfold so in B. destruct sg; cbn [plus].
    + rewrite parity_below_S, IH, B by lia. rewrite xorb_assoc. reflexivity.
    + rewrite parity_below_S, IH, B by lia. rewrite xorb_assoc. reflexivity.
Qed.

Lemma so_ltb W s p q : (so W s p <? so W s q) = (p <? q).
Proof.
  unfold so. destruct s; auto.
  destruct (Nat.ltb_spec (p + W/2) (q + W/2)), (Nat.ltb_spec p q); try lia; reflexivity.
Qed.
Lemma so_ltb_ft W p q : p < W / 2 -> (so W false p <? so W true q) = true.
Proof. intros H. unfold so. apply Nat.ltb_lt. lia. Qed.
Lemma so_ltb_tf W p q : q < W / 2 -> (so W true p <? so W false q) = false.
Proof. intros H. unfold so. apply Nat.ltb_ge. lia. Qed.

Lemma sg1_so W s x v o : v < W / 2 -> o < W / 2 ->
  sg1 x (so W s v) (so W s o) = sg1 (str W s x) v o.
Proof.
  intros A B. unfold sg1. rewrite !parity_so, so_ltb by auto.
  destruct (cpar W s x), (parity_below (str W s x) o), (parity_below (str W s x) v), (o <? v); reflexivity.
Qed.
Lemma sg2_so W s x a b c d : a < W / 2 -> b < W / 2 -> c < W / 2 -> d < W / 2 ->
  sg2 x (so W s a) (so W s b) (so W s c) (so W s d) = sg2 (str W s x) a b c d.
Proof.
  intros A B C D. unfold sg2. rewrite !parity_so, !so_ltb by auto.
  destruct (cpar W s x), (parity_below (str W s x) a), (parity_below (str W s x) b),
    (parity_below (str W s x) c), (parity_below (str W s x) d);
    repeat match goal with |- context [?u <? ?v] => destruct (u <? v) end; reflexivity.
Qed.
Lemma sg2_mixed W x v1 v2 o2 o1 : v1 < W / 2 -> o1 < W / 2 -> v2 < W / 2 -> o2 < W / 2 ->
  sg2 x (so W false v1) (so W true v2) (so W true o2) (so W false o1) =
  xorb (sg1 (alpha W x) v1 o1) (sg1 (beta W x) v2 o2).
Proof.
  intros A B C D. unfold sg2, sg1.
  rewrite !parity_so, !so_ltb, !so_ltb_ft, !so_ltb_tf by auto. cbn [cpar str].
  set (c := parity_below x (W/2)). clearbody c.
  destruct c, (parity_below (alpha W x) o1), (parity_below (alpha W x) v1),
    (parity_below (beta W x) o2), (parity_below (beta W x) v2), (o1 <? v1), (o2 <? v2); reflexivity.
Qed.

(** ** excitation levels *)
Lemma moves_exists s t n : size_is s n -> size_is t n -> exists k, moves k s t.
Proof.
  intros A B. exists (bs_count (N.ldiff s t)). split; [apply size_is_count; reflexivity|].
  apply size_is_count. apply size_is_count in A, B.
  set (M := N.to_nat (N.size s) + N.to_nat (N.size t)).
  assert (Ws : wf M s).
  { intros i Hi. unfold tb. destruct (N.eq_dec s 0) as [->|Z]; [apply N.bits_0|].
    apply N.bits_above_log2. unfold M in Hi. rewrite (N.size_log2 s) in Hi by auto. lia. }
  assert (Wt : wf M t).
  { intros i Hi. unfold tb. destruct (N.eq_dec t 0) as [->|Z]; [apply N.bits_0|].
    apply N.bits_above_log2. unfold M in Hi. rewrite (N.size_log2 t) in Hi by auto. lia. }
  clearbody M.
  assert (W1 : wf M (N.ldiff s t)) by (intros i Hi; rewrite tb_ldiff, Ws by auto; reflexivity).
  assert (W2 : wf M (N.ldiff t s)) by (intros i Hi; rewrite tb_ldiff, Wt by auto; reflexivity).
  rewrite (count_positions M s) in A by auto. rewrite (count_positions M t) in B by auto.
  rewrite (count_positions M (N.ldiff s t)), (count_positions M (N.ldiff t s)) by auto.
  assert (E : length (positions M s) + length (positions M (N.ldiff t s)) =
              length (positions M t) + length (positions M (N.ldiff s t))); [|lia].
  unfold positions. generalize (seq 0 M) as l. induction l as [|a l IH]; cbn [filter length]; auto.
  rewrite !tb_ldiff. destruct (tb s a), (tb t a); cbn [negb andb length]; lia.
Qed.

Lemma count_xor_moves k s t : moves k s t -> bs_count (N.lxor t s) = 2 * k.
Proof.
  intros [(l1 & N1 & I1 & L1) (l2 & N2 & I2 & L2)]. apply size_is_count. exists (l1 ++ l2).
  split; [|split].
  - apply NoDup_app; auto. intros x A B. apply I1 in A. apply I2 in B. rewrite tb_ldiff in *.
    destruct (tb s x), (tb t x); discriminate.
  - intros i. rewrite in_app_iff, I1, I2, !tb_ldiff, tb_xor.
    destruct (tb s i), (tb t i); cbn; intuition discriminate.
  - rewrite app_length. lia.
Qed.

(** ** main section *)
Section MAIN.
  Variables (W : nat) (HW : spin_width W) (h : ints).
  Notation n := (norb h).
  Hypothesis Hn : n <= W / 2.
  Hypothesis Vsym : forall p q r s, p < n -> q < n -> r < n -> s < n ->
    V_pqrs h p q r s = V_pqrs h r s p q.
  Variables (bra ket : N).
  Hypothesis (Sb : in_space W n bra) (Sk : in_space W n ket).

  Notation L := (SO W n).
  Notation E1' := (E1 L (lift1 W (T_pq h)) bra ket).
  Notation E2' := (E2 L (lift2 W (V_pqrs h)) bra ket).

  Lemma ham_E : ham W n (T_pq h) (V_pqrs h) bra ket = (E1' + half * E2')%Qc.
  Proof. unfold ham. rewrite one_body_E1, two_body_E2 by auto. reflexivity. Qed.

  Lemma str_wf x s : in_space W n x -> wf n (str W s x).
  Proof. intros [A B]. destruct s; auto. Qed.

  Lemma in_SO x i : in_space W n x -> tb x i = true -> In i L.
  Proof.
    intros S H. destruct (so_cover W i) as (sg & p & -> & C). rewrite tb_str in H by auto.
    apply SO_In; auto. exists sg, p. split; auto.
    destruct (Nat.ltb_spec p n); auto. rewrite (str_wf x sg S) in H by auto. discriminate.
  Qed.

  Lemma sum_occ x f : sum (filter (tb x) L) f =
    sum spins (fun sg => sum (positions n (str W sg x)) (fun p => f (so W sg p))).
  Proof.
    rewrite sum_filter, sum_SO. apply sum_ext. intros sg _. unfold positions. rewrite sum_filter.
    apply sum_ext. intros p Hp. apply in_seq in Hp. rewrite tb_str by lia. reflexivity.
  Qed.

  Lemma sum_spins_pick s f : sum spins f = (f s + f (negb s))%Qc.
  Proof. destruct s; cbn [sum spins negb]; ring. Qed.

  Lemma pos_lt x s p : In p (positions n (str W s x)) -> p < n.
  Proof. intros H. apply positions_In in H. lia. Qed.

  Lemma bra_bits (f : bool -> nat -> bool) :
    (forall s p, s = true \/ p < W / 2 -> tb (str W s bra) p = xorb (tb (str W s ket) p) (f s p)) ->
    forall g, (forall s p, s = true \/ p < W / 2 -> g (so W s p) = f s p) ->
    forall k, tb bra k = xorb (tb ket k) (g k).
  Proof.
    intros A g B k. destruct (so_cover W k) as (s & p & -> & C).
    rewrite !tb_str, A, B by auto. reflexivity.
  Qed.

  (** *** diagonal *)
  Lemma me_diag : bra = ket ->
    matrix_element_diag h (positions n (alpha W bra)) (positions n (beta W bra)) =
    Ok (ham W n (T_pq h) (V_pqrs h) bra ket).
  Proof.
    intros E. rewrite ham_E. unfold matrix_element_diag.
    set (oa := positions n (alpha W bra)). set (ob := positions n (beta W bra)).
    assert (La : forall p, In p oa -> p < n) by (intros p; apply (pos_lt bra false)).
    assert (Lb : forall p, In p ob -> p < n) by (intros p; apply (pos_lt bra true)).
    rewrite (sumM_ok oa _ (fun p => T_pq h p p)) by (intros; apply T_at_ok; auto). cbn [bind].
    rewrite (sumM_ok ob _ (fun p => T_pq h p p)) by (intros; apply T_at_ok; auto). cbn [bind].
    rewrite (sumM_ok (list_prod oa oa) _ (fun qp => G2 h (snd qp) (fst qp))).
    2:{ intros [q p] Hqp. apply in_prod_iff in Hqp. apply G2_at_ok; cbn; apply La; tauto. }
    cbn [bind]. rewrite (sumM_ok (list_prod ob ob) _ (fun qp => G2 h (snd qp) (fst qp))).
    2:{ intros [q p] Hqp. apply in_prod_iff in Hqp. apply G2_at_ok; cbn; apply Lb; tauto. }
    cbn [bind]. rewrite (sumM_ok (list_prod ob oa) _ (fun qp => V_pqrs h (snd qp) (snd qp) (fst qp) (fst qp))).
    2:{ intros [q p] Hqp. apply in_prod_iff in Hqp. apply V2_at_ok; cbn; [apply La|apply Lb]; tauto. }
    f_equal. rewrite !sum_prod. cbn [fst snd].
    assert (Hk : forall i, tb ket i = true -> In i L) by (intros i; apply in_SO, Sk).
    rewrite (E1_diag L (SO_NoDup W n Hn) _ (fun _ _ _ _ => 0%Qc) bra ket Hk E).
    rewrite (E2_diag L (SO_NoDup W n Hn) (fun _ _ => 0%Qc) _ bra ket Hk E).
    unfold occ. rewrite !sum_occ. cbn [sum spins]. rewrite <- E. cbn [str]. fold oa ob.
    assert (X1 : sum oa (fun p => lift1 W (T_pq h) (so W false p) (so W false p)) = sum oa (fun p => T_pq h p p)).
    { apply sum_ext. intros p Hp. rewrite (lift1_so W n) by auto. reflexivity. }
    assert (X2 : sum ob (fun p => lift1 W (T_pq h) (so W true p) (so W true p)) = sum ob (fun p => T_pq h p p)).
    { apply sum_ext. intros p Hp. rewrite (lift1_so W n) by auto. reflexivity. }
    rewrite X1, X2. clear X1 X2.
    set (F := fun y : nat => sum (filter (tb bra) L)
       (fun w : nat => (lift2 W (V_pqrs h) y y w w - lift2 W (V_pqrs h) w y y w)%Qc)).
    assert (Fa : forall q, In q oa -> F (so W false q) =
      (sum oa (fun p => G_pqrs h p p q q) + sum ob (fun p => V_pqrs h q q p p))%Qc).
    { intros q Hq. unfold F. rewrite sum_occ. cbn [sum spins]. cbn [str]. fold oa ob.
      rewrite Qcplus_0_r. f_equal; apply sum_ext; intros p Hp; rewrite !(lift2_so W n) by auto; cbn [eqb andb].
      - unfold G_pqrs. rewrite (Vsym q q p p) by auto. reflexivity.
      - ring. }
    assert (Fb : forall q, In q ob -> F (so W true q) =
      (sum oa (fun p => V_pqrs h p p q q) + sum ob (fun p => G_pqrs h p p q q))%Qc).
    { intros q Hq. unfold F. rewrite sum_occ. cbn [sum spins]. cbn [str]. fold oa ob.
      rewrite Qcplus_0_r. f_equal; apply sum_ext; intros p Hp; rewrite !(lift2_so W n) by auto; cbn [eqb andb].
      - rewrite (Vsym q q p p) by auto. ring.
      - unfold G_pqrs. rewrite (Vsym q q p p) by auto. reflexivity. }
    unfold F in Fa, Fb. rewrite (sum_ext oa _ _ Fa), (sum_ext ob _ _ Fb).
    rewrite !sum_plus. unfold G2. 
    assert (Y : forall l : list nat, sum l (fun a => sum l (fun b => (half * G_pqrs h b b a a)%Qc)) =
      (half * sum l (fun a => sum l (fun b => G_pqrs h b b a a)))%Qc).
    { intros l. rewrite <- sum_scale. apply sum_ext. intros a _. apply sum_scale. }
    rewrite !Y. rewrite (sum_swap oa ob (fun q p => V_pqrs h q q p p)).
    set (S := sum ob (fun b => sum oa (fun a => V_pqrs h a a b b))).
    transitivity (sum oa (fun p => T_pq h p p) + sum ob (fun p => T_pq h p p) +
      half * sum oa (fun a => sum oa (fun b => G_pqrs h b b a a)) +
      half * sum ob (fun a => sum ob (fun b => G_pqrs h b b a a)) + (half * S + half * S))%Qc.
    - rewrite half_half. ring.
    - ring.
  Qed.

  (** *** one electron moved in spin [s] *)
  Lemma single_bits s o v : o < n -> v < n -> str W s bra = flip2 (str W s ket) (o, v) ->
    str W (negb s) bra = str W (negb s) ket ->
    forall k, tb bra k = xorb (xorb (tb ket k) (k =? so W s o)) (k =? so W s v).
  Proof.
    intros Ho Hv E1 E2 k. destruct (so_cover W k) as (t & p & -> & C).
    rewrite !tb_str by auto. rewrite !so_eqb by (auto; lia).
    destruct (Bool.bool_dec t s) as [->|D].
    - rewrite E1, eqb_reflx. unfold flip2. cbn [fst snd andb]. rewrite !tb_flip. reflexivity.
    - assert (t = negb s) by (destruct t, s; cbn; congruence). subst t. rewrite E2.
      destruct s; cbn [negb eqb andb]; rewrite !xorb_false_r; reflexivity.
  Qed.

  Lemma occ_after_single s o v : tb s o = true -> tb s v = false -> o < n -> v < n -> wf n s ->
    Permutation (positions n (flip2 s (o, v))) (v :: filter (fun r => negb (r =? o)) (positions n s)).
  Proof.
    intros To Tv Ho Hv Ws. apply NoDup_Permutation.
    - apply positions_NoDup.
    - constructor; [|apply NoDup_filter, positions_NoDup].
      rewrite filter_In, positions_In. intros [[_ H] _]. congruence.
    - intros k. cbn [In]. rewrite filter_In, !positions_In, negb_true_iff, Nat.eqb_neq.
      unfold flip2. cbn [fst snd]. rewrite !tb_flip.
      destruct (Nat.eqb_spec k o), (Nat.eqb_spec k v); subst; try congruence.
      + rewrite To. cbn. split; [intros [_ ?]; discriminate|]. intros [?|[_ ?]]; congruence.
      + rewrite Tv. cbn. split; auto.
      + rewrite !xorb_false_r. split; [intros [? ?]; auto|]. intros [?|[[? ?] ?]]; [lia|auto].
  Qed.

  Lemma me_single s o v : tb (str W s ket) o = true -> tb (str W s ket) v = false -> o < n -> v < n ->
    str W s bra = flip2 (str W s ket) (o, v) -> str W (negb s) bra = str W (negb s) ket ->
    matrix_element_2 h (W / 2) (str W s bra) (str W s ket) (N.lxor (str W s bra) (str W s ket))
      (positions n (str W s bra)) (positions n (str W (negb s) bra)) =
    Ok (ham W n (T_pq h) (V_pqrs h) bra ket).
  Proof.
    intros To Tv Ho Hv Es En. pose proof (single_bits s o v Ho Hv Es En) as Hbits.
    assert (Ws : wf n (str W s ket)) by (apply str_wf, Sk).
    rewrite ham_E. unfold matrix_element_2. rewrite Es at 1 2.
    rewrite single_ok; auto; try lia. 2:{ eapply wf_le; [|exact Ws]. lia. }
    cbn [bind]. rewrite T_at_ok by auto. cbn [bind].
    rewrite (sumM_ok _ _ (fun p => G_pqrs h p p v o)).
    2:{ intros p Hp. apply pos_lt in Hp. apply G_at_ok; auto. }
    cbn [bind]. rewrite (sumM_ok _ _ (fun p => V_pqrs h p p v o)).
    2:{ intros p Hp. apply pos_lt in Hp. apply V_at_ok; auto. }
    cbn [bind]. f_equal.
    assert (Hk : forall i, tb ket i = true -> In i L) by (intros i; apply in_SO, Sk).
    assert (Hb : forall i, tb bra i = true -> In i L) by (intros i; apply in_SO, Sb).
    assert (To' : tb ket (so W s o) = true) by (rewrite tb_str by lia; auto).
    assert (Tv' : tb ket (so W s v) = false) by (rewrite tb_str by lia; auto).
    rewrite (E1_single L (SO_NoDup W n Hn) _ bra ket Hk Hb (so W s o) (so W s v) To' Tv' Hbits).
    rewrite (E2_single L (SO_NoDup W n Hn) (fun _ _ => 0%Qc) _ bra ket Hk Hb (so W s o) (so W s v) To' Tv' Hbits).
    rewrite sg1_so by lia. rewrite (lift1_so W n), eqb_reflx by auto.
    unfold rest, occ. rewrite sum_filter, sum_occ, (sum_spins_pick s).
    assert (X1 : sum (positions n (str W s bra)) (fun p => G_pqrs h p p v o) =
                 sum (filter (fun r => negb (r =? o)) (positions n (str W s ket))) (fun p => G_pqrs h p p v o)).
    { rewrite Es. rewrite (sum_perm _ _ _ (occ_after_single _ o v To Tv Ho Hv Ws)). cbn [sum].
      unfold G_pqrs at 1. rewrite (Vsym v v v o) by auto. ring. }
    rewrite X1. clear X1. rewrite sum_filter.
    set (SG := sgn (sg1 (str W s ket) v o)).
    assert (Y1 : sum (positions n (str W s ket)) (fun p => if negb (so W s p =? so W s o) then
        (lift2 W (V_pqrs h) (so W s v) (so W s o) (so W s p) (so W s p) +
         lift2 W (V_pqrs h) (so W s p) (so W s p) (so W s v) (so W s o) -
         lift2 W (V_pqrs h) (so W s v) (so W s p) (so W s p) (so W s o) -
         lift2 W (V_pqrs h) (so W s p) (so W s o) (so W s v) (so W s p))%Qc else 0%Qc) =
      ((1 + 1) * sum (positions n (str W s ket)) (fun a => if negb (a =? o) then G_pqrs h a a v o else 0%Qc))%Qc).
    { rewrite <- sum_scale. apply sum_ext. intros p Hp. apply pos_lt in Hp.
      rewrite so_eqb by lia. rewrite eqb_reflx. cbn [andb]. destruct (p =? o); cbn [negb]; [ring|].
      rewrite !(lift2_so W n) by auto. rewrite !eqb_reflx. cbn [andb]. unfold G_pqrs.
      rewrite (Vsym v o p p), (Vsym v p p o) by auto. ring. }
    assert (Y2 : sum (positions n (str W (negb s) ket)) (fun p => if negb (so W (negb s) p =? so W s o) then
        (lift2 W (V_pqrs h) (so W s v) (so W s o) (so W (negb s) p) (so W (negb s) p) +
         lift2 W (V_pqrs h) (so W (negb s) p) (so W (negb s) p) (so W s v) (so W s o) -
         lift2 W (V_pqrs h) (so W s v) (so W (negb s) p) (so W (negb s) p) (so W s o) -
         lift2 W (V_pqrs h) (so W (negb s) p) (so W s o) (so W s v) (so W (negb s) p))%Qc else 0%Qc) =
      ((1 + 1) * sum (positions n (str W (negb s) ket)) (fun a => V_pqrs h a a v o))%Qc).
    { rewrite <- sum_scale. apply sum_ext. intros p Hp. apply pos_lt in Hp.
      rewrite so_eqb by lia. rewrite !(lift2_so W n) by auto. rewrite !eqb_reflx.
      replace (eqb (negb s) s) with false by (destruct s; reflexivity).
      replace (eqb s (negb s)) with false by (destruct s; reflexivity). cbn [andb negb].
      rewrite (Vsym v o p p) by auto. ring. }
    rewrite Y1, Y2, En.
    set (A := sum (positions n (str W s ket)) _). set (B := sum (positions n (str W (negb s) ket)) _).
    transitivity (SG * T_pq h v o + SG * (half * (A + B) + half * (A + B)))%Qc.
    - rewrite half_half. ring.
    - ring.
  Qed.

  (** *** two electrons of the same spin *)
  Lemma me_double_same s i a j b : i < n -> a < n -> j < n -> b < n ->
    tb (str W s ket) i = true -> tb (str W s ket) j = true ->
    tb (str W s ket) a = false -> tb (str W s ket) b = false -> i < j -> a < b ->
    str W s bra = flip4 (str W s ket) (i, a, j, b) -> str W (negb s) bra = str W (negb s) ket ->
    matrix_element_4 h (W / 2) (str W s bra) (str W s ket) (N.lxor (str W s bra) (str W s ket)) =
    Ok (ham W n (T_pq h) (V_pqrs h) bra ket).
  Proof.
    intros Hi Ha Hj Hb Ti Tj Ta Tb Lij Lab Es En.
    assert (Ws : wf n (str W s ket)) by (apply str_wf, Sk).
    rewrite ham_E. unfold matrix_element_4. rewrite Es.
    rewrite double_ok; auto; try lia. 2:{ eapply wf_le; [|exact Ws]. lia. }
    cbn [bind]. rewrite G_at_ok by auto. cbn [bind]. f_equal.
    assert (Hk : forall i, tb ket i = true -> In i L) by (intros k; apply in_SO, Sk).
    assert (Hbb : forall i, tb bra i = true -> In i L) by (intros k; apply in_SO, Sb).
    assert (Bits : forall k, tb bra k = xorb (xorb (xorb (xorb (tb ket k) (k =? so W s i))
       (k =? so W s j)) (k =? so W s b)) (k =? so W s a)).
    { intros k. destruct (so_cover W k) as (t & p & -> & C).
      rewrite !tb_str by auto. rewrite !so_eqb by (auto; lia).
      destruct (Bool.bool_dec t s) as [->|D].
      - rewrite Es, eqb_reflx. cbn [andb]. apply flip4_bits.
      - assert (t = negb s) by (destruct t, s; cbn; congruence). subst t. rewrite En.
        destruct s; cbn [negb eqb andb]; rewrite !xorb_false_r; reflexivity. }
    assert (N1 : so W s i <> so W s j).
    { intros E. apply (so_inj W n Hn) in E; lia. }
    assert (N2 : so W s a <> so W s b).
    { intros E. apply (so_inj W n Hn) in E; lia. }
    assert (K : forall p, p < n -> tb ket (so W s p) = tb (str W s ket) p) by (intros; apply tb_str; lia).
    rewrite (E1_double L (SO_NoDup W n Hn) _ bra ket (so W s i) (so W s a) (so W s j) (so W s b));
      rewrite ?K; auto.
    rewrite (E2_double L (SO_NoDup W n Hn) (fun _ _ => 0%Qc) _ bra ket Hk Hbb (so W s i) (so W s a) (so W s j) (so W s b));
      rewrite ?K; auto.
    rewrite sg2_so by lia. rewrite !(lift2_so W n) by auto. rewrite !eqb_reflx. cbn [andb].
    rewrite (Vsym b j a i), (Vsym b i a j) by auto. unfold G_pqrs.
    set (SG := sgn (sg2 (str W s ket) a b j i)).
    transitivity (half * (SG * (V_pqrs h a i b j - V_pqrs h a j b i)) +
                  half * (SG * (V_pqrs h a i b j - V_pqrs h a j b i)))%Qc.
    - rewrite half_half. reflexivity.
    - ring.
  Qed.

  (** *** one alpha and one beta electron *)
  Lemma me_double_mixed o1 v1 o2 v2 : o1 < n -> v1 < n -> o2 < n -> v2 < n ->
    tb (alpha W ket) o1 = true -> tb (alpha W ket) v1 = false ->
    tb (beta W ket) o2 = true -> tb (beta W ket) v2 = false ->
    alpha W bra = flip2 (alpha W ket) (o1, v1) -> beta W bra = flip2 (beta W ket) (o2, v2) ->
    matrix_element_22 h (W / 2) (alpha W bra) (alpha W ket) (N.lxor (alpha W bra) (alpha W ket))
      (beta W bra) (beta W ket) (N.lxor (beta W bra) (beta W ket)) =
    Ok (ham W n (T_pq h) (V_pqrs h) bra ket).
  Proof.
    intros H1 H2 H3 H4 T1 T2 T3 T4 Ea Eb.
    destruct Sk as [Wa Wb].
    rewrite ham_E. unfold matrix_element_22. rewrite Ea, Eb.
    rewrite single_ok; auto; try lia. 2:{ eapply wf_le; [|exact Wa]. lia. }
    cbn [bind]. rewrite single_ok; auto; try lia. 2:{ eapply wf_le; [|exact Wb]. lia. }
    cbn [bind]. rewrite V_at_ok by auto. cbn [bind]. f_equal.
    assert (Hk : forall i, tb ket i = true -> In i L) by (intros k; apply in_SO, Sk).
    assert (Hbb : forall i, tb bra i = true -> In i L) by (intros k; apply in_SO, Sb).
    assert (Bits : forall k, tb bra k = xorb (xorb (xorb (xorb (tb ket k) (k =? so W false o1))
       (k =? so W true o2)) (k =? so W true v2)) (k =? so W false v1)).
    { intros k. destruct (so_cover W k) as (t & p & -> & C).
      rewrite !tb_str by auto. rewrite !so_eqb by (auto; lia).
      destruct t; cbn [str eqb andb].
      - rewrite Eb. unfold flip2. cbn [fst snd]. rewrite !tb_flip, !xorb_false_r. reflexivity.
      - rewrite Ea. unfold flip2. cbn [fst snd]. rewrite !tb_flip, !xorb_false_r. reflexivity. }
    assert (K : forall s p, p < n -> tb ket (so W s p) = tb (str W s ket) p) by (intros; apply tb_str; lia).
    assert (N1 : so W false o1 <> so W true o2).
    { intros E. apply (so_inj W n Hn) in E; try lia; destruct E; discriminate. }
    assert (N2 : so W false v1 <> so W true v2).
    { intros E. apply (so_inj W n Hn) in E; try lia; destruct E; discriminate. }
    rewrite (E1_double L (SO_NoDup W n Hn) _ bra ket (so W false o1) (so W false v1) (so W true o2) (so W true v2));
      rewrite ?K; auto.
    rewrite (E2_double L (SO_NoDup W n Hn) (fun _ _ => 0%Qc) _ bra ket Hk Hbb (so W false o1) (so W false v1) (so W true o2) (so W true v2));
      rewrite ?K; auto.
    rewrite sg2_mixed by lia. rewrite !(lift2_so W n) by auto. cbn [eqb andb].
    rewrite (Vsym v2 o2 v1 o1) by auto. rewrite sgn_xorb.
    set (S1 := sgn (sg1 (alpha W ket) v1 o1)). set (S2 := sgn (sg1 (beta W ket) v2 o2)).
    transitivity (half * (S1 * S2 * V_pqrs h v1 o1 v2 o2) + half * (S1 * S2 * V_pqrs h v1 o1 v2 o2))%Qc.
    - rewrite half_half. reflexivity.
    - ring.
  Qed.
End MAIN.

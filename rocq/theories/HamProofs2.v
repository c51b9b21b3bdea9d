(** The code's matrix elements equal the second-quantised ones, part 2. *)
From Coq Require Import QArith Qcanon Sorting.Permutation.
From Verif Require Import Base Bits BitsProofs SD Spec SDProofs SDProofs2 SDProofs4 SDProofs5 Sums
  FockSpec FockProofs SlaterCondon Ham HamProofs.
Local Open Scope nat_scope.

(** ** from spatial to spin-orbital sums *)
Section SPINORB.
  Variables (W n : nat).
  Hypothesis Hn : n <= W / 2.

  Definition SO : list nat := flat_map (fun sg => map (so W sg) (seq 0 n)) spins.
  Definition isb (x : nat) : bool := W / 2 <=? x.
  Definition sp (x : nat) : nat := if isb x then x - W / 2 else x.

  Lemma isb_so sg p : p < n -> isb (so W sg p) = sg.
  Proof.
    intros H. unfold isb, so. destruct sg.
    - destruct (Nat.leb_spec (W/2) (p + W/2)); [reflexivity|lia].
    - destruct (Nat.leb_spec (W/2) p); [lia|reflexivity].
  Qed.
  Lemma sp_so sg p : p < n -> sp (so W sg p) = p.
  Proof. intros H. unfold sp. rewrite isb_so by auto. unfold so. destruct sg; lia. Qed.
  Lemma so_inj sg p sg' p' : p < n -> p' < n -> so W sg p = so W sg' p' -> sg = sg' /\ p = p'.
  Proof.
    intros A B E. split.
    - rewrite <- (isb_so sg p), <- (isb_so sg' p') by auto. f_equal. exact E.
    - rewrite <- (sp_so sg p), <- (sp_so sg' p') by auto. f_equal. exact E.
  Qed.

  Lemma SO_In x : In x SO <-> exists sg p, p < n /\ x = so W sg p.
  Proof.
    unfold SO. rewrite in_flat_map. split.
    - intros (sg & _ & H). apply in_map_iff in H. destruct H as (p & <- & Hp).
      apply in_seq in Hp. exists sg, p. split; [lia|auto].
    - intros (sg & p & Hp & ->). exists sg. split; [destruct sg; cbn; auto|].
      apply in_map. apply in_seq. lia.
  Qed.
  Lemma SO_NoDup : NoDup SO.
  Proof.
    unfold SO. apply NoDup_flat_map.
    - unfold spins. repeat (apply NoDup_cons; [cbn; intuition discriminate|]). constructor.
    - intros sg _. apply NoDup_map_inj; [|apply seq_NoDup]. intros a b A B E.
      apply in_seq in A. apply in_seq in B. apply (so_inj sg a sg b); auto; lia.
    - intros a b x _ _ A B. apply in_map_iff in A. apply in_map_iff in B.
      destruct A as (p & <- & A), B as (q & E & B). apply in_seq in A. apply in_seq in B.
      symmetry in E. apply so_inj in E; [tauto|lia|lia].
  Qed.

  Lemma sum_SO f : sum SO f = sum spins (fun sg => sum (seq 0 n) (fun p => f (so W sg p))).
  Proof.
    unfold SO. rewrite sum_flat_map. apply sum_ext. intros sg _. apply sum_map.
  Qed.

  Definition lift1 (T : mat2) (x y : nat) : Qc :=
    if eqb (isb x) (isb y) then T (sp x) (sp y) else 0%Qc.
  Definition lift2 (V : mat4) (x y z w : nat) : Qc :=
    if eqb (isb x) (isb y) && eqb (isb z) (isb w) then V (sp x) (sp y) (sp z) (sp w) else 0%Qc.

  Lemma lift1_so T sg p sg' q : p < n -> q < n ->
    lift1 T (so W sg p) (so W sg' q) = if eqb sg sg' then T p q else 0%Qc.
  Proof. intros A B. unfold lift1. rewrite !isb_so, !sp_so by auto. reflexivity. Qed.
  Lemma lift2_so V a p b q c r d s : p < n -> q < n -> r < n -> s < n ->
    lift2 V (so W a p) (so W b q) (so W c r) (so W d s) =
    if eqb a b && eqb c d then V p q r s else 0%Qc.
  Proof. intros A B C D. unfold lift2. rewrite !isb_so, !sp_so by auto. reflexivity. Qed.

  Lemma sum_spin_eq sg (f : bool -> Qc) :
    (forall ta, ta <> sg -> f ta = 0%Qc) -> sum spins f = f sg.
  Proof.
    intros H. apply sum_single.
    - unfold spins. repeat (apply NoDup_cons; [cbn; intuition discriminate|]). constructor.
    - destruct sg; cbn; auto.
    - intros b _ Hb. auto.
  Qed.

  Lemma one_body_E1 T bra ket : one_body W n T bra ket = E1 SO (lift1 T) bra ket.
  Proof.
    unfold one_body, E1. rewrite sum_SO. apply sum_ext. intros sg _. apply sum_ext. intros p Hp.
    apply in_seq in Hp. rewrite sum_SO. symmetry. rewrite (sum_spin_eq sg).
    - apply sum_ext. intros q Hq. apply in_seq in Hq. rewrite lift1_so by lia.
      rewrite eqb_reflx. reflexivity.
    - intros ta Hta. apply sum_zero. intros q Hq. apply in_seq in Hq. rewrite lift1_so by lia.
      destruct sg, ta; try congruence; cbn [eqb]; ring.
  Qed.

  Lemma two_body_E2 V bra ket : two_body W n V bra ket = E2 SO (lift2 V) bra ket.
  Proof.
    unfold two_body, E2. rewrite sum_SO. apply sum_ext. intros sg _. rewrite sum_swap.
    apply sum_ext. intros p Hp. apply in_seq in Hp.
    rewrite sum_SO. symmetry. rewrite (sum_spin_eq sg).
    2:{ intros ta Hta. apply sum_zero. intros q Hq. apply in_seq in Hq.
        rewrite sum_SO. apply sum_zero. intros c _. apply sum_zero. intros r Hr. apply in_seq in Hr.
        rewrite sum_SO. apply sum_zero. intros d _. apply sum_zero. intros s Hs. apply in_seq in Hs.
        rewrite lift2_so by lia. destruct sg, ta; try congruence; cbn [eqb andb]; ring. }
    symmetry. rewrite sum_swap. symmetry. apply sum_ext. intros q Hq. apply in_seq in Hq.
    rewrite sum_SO. apply sum_ext. intros c _. apply sum_ext. intros r Hr. apply in_seq in Hr.
    rewrite sum_SO. rewrite (sum_spin_eq c).
    - apply sum_ext. intros s Hs. apply in_seq in Hs. rewrite lift2_so by lia.
      rewrite !eqb_reflx. reflexivity.
    - intros d Hd. apply sum_zero. intros s Hs. apply in_seq in Hs. rewrite lift2_so by lia.
      rewrite eqb_reflx. destruct c, d; try congruence; cbn [eqb andb]; ring.
  Qed.
End SPINORB.

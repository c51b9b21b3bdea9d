(** A quadratic expansion determines its coefficients (used by Props_Dense). *)
From Coq Require Import QArith Qcanon Qcabs Qabs Bool Lia Lra Lqa.
From Verif Require Import Base Sums Dense DenseSpec.
Local Open Scope Q_scope.
Lemma small_le0 (x n : Q) : (forall t, 0 < t -> t <= 1 -> x <= t * n) -> x <= 0.
Proof.
  intros H. destruct (Qlt_le_dec 0 x) as [Hx|Hx]; [|exact Hx]. exfalso.
  assert (Hn : 0 < n). { pose proof (H 1 ltac:(lra) ltac:(lra)). lra. }
  set (d := x + n). assert (Hd : 0 < d) by (unfold d; lra).
  assert (Ht : 0 < x / d). { apply Qlt_shift_div_l; lra. }
  assert (Ht1 : x / d <= 1). { apply Qle_shift_div_r; unfold d; lra. }
  pose proof (H _ Ht Ht1) as K.
  assert (E : x / d * n * d == x * n) by (field; lra).
  assert (K2 : x * d <= x / d * n * d). { apply Qmult_le_compat_r; lra. }
  rewrite E in K2. unfold d in K2. nra.
Qed.
Lemma cubic_zero (A B C M : Q) : (forall t, 0 < t -> t <= 1 -> - (M * (t * t * t)) <= A + t * B + t * t * C <= M * (t * t * t)) -> A == 0 /\ B == 0 /\ C == 0.
Proof.
  intros H. pose proof (Qabs_Qle_condition B (Qabs B)) as [QB _]. specialize (QB (Qle_refl _)).
  pose proof (Qabs_Qle_condition C (Qabs C)) as [QC _]. specialize (QC (Qle_refl _)).
  pose proof (Qabs_nonneg B) as PB. pose proof (Qabs_nonneg C) as PC.
  set (b := Qabs B) in *. set (c := Qabs C) in *.
  assert (HM : 0 <= M). { destruct (H 1 ltac:(lra) ltac:(lra)). lra. }
  assert (HA : A == 0).
  { assert (A <= 0). { apply (small_le0 A (b + c + M)). intros t L0 L1. destruct (H t L0 L1) as [_ K].
      assert (t * t <= t) by nra. assert (t * t * t <= t) by nra. nra. }
    assert (- A <= 0). { apply (small_le0 (- A) (b + c + M)). intros t L0 L1. destruct (H t L0 L1) as [K _].
      assert (t * t <= t) by nra. assert (t * t * t <= t) by nra. nra. }
    lra. }
  assert (H' : forall t, 0 < t -> t <= 1 -> - (M * (t * t)) <= B + t * C <= M * (t * t)).
  { intros t L0 L1. destruct (H t L0 L1) as [K1 K2]. rewrite HA in K1, K2. split.
    - apply (Qmult_le_l _ _ t L0). nra.
    - apply (Qmult_le_l _ _ t L0). nra. }
  assert (HB : B == 0).
  { assert (B <= 0). { apply (small_le0 B (c + M)). intros t L0 L1. destruct (H' t L0 L1) as [_ K]. assert (t * t <= t) by nra. nra. }
    assert (- B <= 0). { apply (small_le0 (- B) (c + M)). intros t L0 L1. destruct (H' t L0 L1) as [K _]. assert (t * t <= t) by nra. nra. }
    lra. }
  assert (H2 : forall t, 0 < t -> t <= 1 -> - (M * t) <= C <= M * t).
  { intros t L0 L1. destruct (H' t L0 L1) as [K1 K2]. rewrite HB in K1, K2. split.
    - apply (Qmult_le_l _ _ t L0). nra.
    - apply (Qmult_le_l _ _ t L0). nra. }
  split; [exact HA|]. split; [exact HB|].
  assert (C <= 0). { apply (small_le0 C M). intros t L0 L1. destruct (H2 t L0 L1). lra. }
  assert (- C <= 0). { apply (small_le0 (- C) M). intros t L0 L1. destruct (H2 t L0 L1). lra. }
  lra.
Qed.
Lemma expands_unique f a b c a' b' c' : expands f a b c -> expands f a' b' c' -> a = a' /\ b = b' /\ c = c'.
Proof.
  intros [M HM] [M' HM'].
  assert (K : (this a - this a' == 0 /\ this b - this b' == 0 /\ this c - this c' == 0)%Q).
  { apply (cubic_zero _ _ _ (this M + this M')). intros t L0 L1.
    assert (Ht : (Qcabs (Q2Qc t) <= 1)%Qc).
    { apply Qcabs_Qcle_condition. split; unfold Qcle; cbn [this Q2Qc]; rewrite ?Qred_correct; [|change (t <= 1); lra].
      change (- (1) <= t). lra. }
    specialize (HM _ Ht). specialize (HM' _ Ht).
    assert (E3 : (Qcabs (Q2Qc t * Q2Qc t * Q2Qc t) = Q2Qc t * Q2Qc t * Q2Qc t)%Qc).
    { apply Qcabs_pos. unfold Qcle. cbn [this Q2Qc]. unfold Qcmult. cbn [this Q2Qc]. rewrite !Qred_correct. change (0 <= t * t * t). nra. }
    rewrite E3 in HM, HM'. apply Qcabs_Qcle_condition in HM, HM'. destruct HM as [P1 P2], HM' as [P3 P4].
    unfold Qcle, Qcopp, Qcminus, Qcplus, Qcmult in P1, P2, P3, P4. cbn [this Q2Qc] in P1, P2, P3, P4.
    unfold Qcopp in *. cbn [this Q2Qc] in *. rewrite !Qred_correct in P1, P2, P3, P4.
    set (ft := this (f (Q2Qc t))) in *. rewrite ?Qred_correct in P1, P3. split; lra. }
  destruct K as [Ka [Kb Kc]]. split; [|split]; apply Qc_is_canon; lra.
Qed.

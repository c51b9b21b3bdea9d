(** A polynomial of two variables along a line. *)
From Coq Require Import QArith Qcanon Lia.
From Verif Require Import Base Sums Dense DenseSpec DenseProofs HessProofs ExpandProofs NumGrad NumGradSpec NumGradAcc.
From Coq Require Import Qcabs.
Local Open Scope Qc_scope.

Lemma expands_id : expands (fun t => t) 0 1 0.
Proof. apply expands_small. exists 0. split; [apply Qcle_refl|]. intros t _. replace (t - (0 + t * 1 + t * t * 0)) with 0 by ring. rewrite Qcmult_0_l, (Qcabs_pos 0) by apply Qcle_refl. apply Qcle_refl. Qed.
Lemma expands_pow k : expands (fun t => qpow t k) (if (k =? 0)%nat then 1 else 0) (if (k =? 1)%nat then 1 else 0) (if (k =? 2)%nat then 1 else 0).
Proof.
  induction k as [|k IH]; [exact (expands_const 1)|].
  eapply expands_ext; [intros t; reflexivity| | | |exact (expands_mult _ _ _ _ _ _ _ _ expands_id IH)].
  - destruct k; cbn [Nat.eqb]; ring.
  - destruct k as [|k]; cbn [Nat.eqb]; [ring|]. destruct k; ring.
  - destruct k as [|[|[|k]]]; cbn [Nat.eqb]; ring.
Qed.
Lemma qpow_mul x y n : qpow (x * y) n = qpow x n * qpow y n.
Proof. induction n as [|n IH]; cbn [qpow]; [ring|]. rewrite IH. ring. Qed.
Lemma qpow_add x n m : qpow x (n + m) = qpow x n * qpow x m.
Proof. induction n as [|n IH]; cbn [qpow Nat.add]; [ring|]. rewrite IH. ring. Qed.
Lemma poly5_expands c x y : expands (fun t => poly5 c (t * x) (t * y)) (c 0%nat 0%nat) (c 1%nat 0%nat * x + c 0%nat 1%nat * y)
  (c 2%nat 0%nat * (x * x) + c 1%nat 1%nat * (x * y) + c 0%nat 2%nat * (y * y)).
Proof.
  pose (w := fun m n => c m n * qpow x m * qpow y n).
  assert (G : expands (fun t => Sigma 6 (fun m => Sigma (6 - m) (fun n => w m n * qpow t (m + n))))
     (Sigma 6 (fun m => Sigma (6 - m) (fun n => w m n * (if (m + n =? 0)%nat then 1 else 0))))
     (Sigma 6 (fun m => Sigma (6 - m) (fun n => w m n * (if (m + n =? 1)%nat then 1 else 0))))
     (Sigma 6 (fun m => Sigma (6 - m) (fun n => w m n * (if (m + n =? 2)%nat then 1 else 0))))).
  { apply (expands_Sigma 6 (fun m t => Sigma (6 - m) (fun n => w m n * qpow t (m + n)))). intros m _.
    apply (expands_Sigma (6 - m) (fun n t => w m n * qpow t (m + n))). intros n _. apply (expands_scale (w m n) (fun t => qpow t (m + n))). apply expands_pow. }
  eapply expands_ext; [| | | |exact G].
  - intros t. unfold poly5. apply Sigma_ext_in. intros m _. apply Sigma_ext_in. intros n _. unfold w. rewrite !qpow_mul, qpow_add. ring.
  - unfold Sigma. cbn [seq sum Nat.sub Nat.add Nat.eqb]. unfold w. cbn [qpow]. ring.
  - unfold Sigma. cbn [seq sum Nat.sub Nat.add Nat.eqb]. unfold w. cbn [qpow]. ring.
  - unfold Sigma. cbn [seq sum Nat.sub Nat.add Nat.eqb]. unfold w. cbn [qpow]. ring.
Qed.
Lemma quintic2_expands f c M x y : quintic2 f c M -> Qcabs x <= 1 -> Qcabs y <= 1 ->
  expands (fun t => f (t * x) (t * y)) (c 0%nat 0%nat) (c 1%nat 0%nat * x + c 0%nat 1%nat * y)
    (c 2%nat 0%nat * (x * x) + c 1%nat 1%nat * (x * y) + c 0%nat 2%nat * (y * y)).
Proof.
  intros HQ Hx Hy.
  assert (R : expands (fun t => f (t * x) (t * y) - poly5 c (t * x) (t * y)) 0 0 0).
  { exists (Qcabs M). intros t Ht. pose proof (Qcabs_nonneg t) as Pt.
    assert (B : forall z, Qcabs z <= 1 -> Qcabs (t * z) <= Qcabs t).
    { intros z Hz. rewrite Qcabs_Qcmult. replace (Qcabs t) with (1 * Qcabs t) at 2 by ring. rewrite (Qcmult_comm (Qcabs t)). apply Qcmult_le_compat_r; assumption. }
    pose proof (HQ _ _ _ (B x Hx) (B y Hy) Ht) as K. change (Sigma 6 (fun m => Sigma (6 - m) (fun n => c m n * qpow (t * x) m * qpow (t * y) n))) with (poly5 c (t * x) (t * y)) in K.
    replace (f (t * x) (t * y) - poly5 c (t * x) (t * y) - (0 + t * 0 + t * t * 0)) with (f (t * x) (t * y) - poly5 c (t * x) (t * y)) by ring.
    eapply Qcle_trans; [exact K|]. rewrite !Qcabs_Qcmult. set (s := Qcabs t) in *. pose proof (Qcle_Qcabs M) as PM. pose proof (Qcabs_nonneg M) as P0.
    set (mm := Qcabs M) in *. clearbody s mm. clear - Pt Ht PM P0. cbn [qpow].
    assert (P3 : 0 <= s * s * s) by (repeat (exact Pt || apply mul_nonneg)).
    assert (L1 : s * s * s * (s * s * s) <= s * s * s).
    { assert (L : s * s * s <= 1). { apply Qcle_trans with (1 * 1 * 1); [|vm_compute; discriminate]. 
        apply Qcle_trans with (1 * s * s). { apply Qcmult_le_compat_r; [|exact Pt]. apply Qcmult_le_compat_r; [exact Ht|exact Pt]. }
        apply Qcle_trans with (1 * 1 * s); [|rewrite (Qcmult_comm (1 * 1) s), (Qcmult_comm (1 * 1) 1); apply Qcmult_le_compat_r; [exact Ht|vm_compute; discriminate]].
        apply Qcmult_le_compat_r; [|exact Pt]. rewrite !(Qcmult_comm 1). apply Qcmult_le_compat_r; [exact Ht|vm_compute; discriminate]. }
      replace (s * s * s) with (1 * (s * s * s)) at 3 by ring. apply Qcmult_le_compat_r; assumption. }
    apply Qcle_trans with (mm * (s * s * s * (s * s * s))).
    - replace (M * (s * (s * (s * (s * (s * (s * 1))))))) with (M * (s * s * s * (s * s * s))) by ring. apply Qcmult_le_compat_r; [exact PM|apply mul_nonneg; exact P3].
    - rewrite !(Qcmult_comm mm). apply Qcmult_le_compat_r; assumption. }
  eapply expands_ext; [| | | |exact (expands_plus _ _ _ _ _ _ _ _ R (poly5_expands c x y))]; intros; cbv beta; ring.
Qed.

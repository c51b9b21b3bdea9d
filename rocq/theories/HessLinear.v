(** The Hessian product is linear in the rotation. *)
From Coq Require Import QArith Qcanon Lia.
From Verif Require Import Base Sums Dense DenseSpec DenseProofs FockMatProofs RotProofs LinRespProofs HessProofs.
Local Open Scope nat_scope.

Lemma Sigma_lin n c d f g h : (forall i, i < n -> f i = (c * g i + d * h i)%Qc) -> Sigma n f = (c * Sigma n g + d * Sigma n h)%Qc.
Proof. intros H. rewrite (Sigma_ext_in n f (fun i => c * g i + d * h i)%Qc H), Sigma_plus, !Sigma_scale. reflexivity. Qed.
Section LIN.
  Variables (ni na : nat) (c d : Qc) (T T1 T2 : nat -> nat -> Qc) (V V1 V2 : nat -> nat -> nat -> nat -> Qc) (D : nat -> nat -> Qc) (D2 : nat -> nat -> nat -> nat -> Qc).
  Hypothesis HT : forall p q, T p q = (c * T1 p q + d * T2 p q)%Qc.
  Hypothesis HV : forall p q r s, V p q r s = (c * V1 p q r s + d * V2 p q r s)%Qc.
  Lemma inactive_fock_lin p q : inactive_fock ni T V p q = (c * inactive_fock ni T1 V1 p q + d * inactive_fock ni T2 V2 p q)%Qc.
  Proof.
    unfold inactive_fock. rewrite HT, (Sigma_lin ni c d _ (fun i => two * V1 p q i i - V1 p i i q)%Qc (fun i => two * V2 p q i i - V2 p i i q)%Qc); [ring|].
    intros i _. rewrite !HV. ring.
  Qed.
  Lemma full_fock_lin r p : full_fock ni na T V D D2 r p = (c * full_fock ni na T1 V1 D D2 r p + d * full_fock ni na T2 V2 D D2 r p)%Qc.
  Proof.
    unfold full_fock. destruct (r <? ni + na); [|ring]. unfold generalized_fock. destruct (r <? ni).
    - rewrite inactive_fock_lin. unfold active_fock. rewrite (Sigma_lin na c d _
        (fun v => Sigma na (fun w => D v w * (V1 p r (v + ni)%nat (w + ni)%nat - half * V1 p (w + ni)%nat (v + ni)%nat r)))%Qc
        (fun v => Sigma na (fun w => D v w * (V2 p r (v + ni)%nat (w + ni)%nat - half * V2 p (w + ni)%nat (v + ni)%nat r)))%Qc); [ring|].
      intros v _. apply Sigma_lin. intros w _. rewrite !HV. ring.
    - rewrite (Sigma_lin na c d _ (fun y => inactive_fock ni T1 V1 p (y + ni)%nat * D y (r - ni)%nat)%Qc (fun y => inactive_fock ni T2 V2 p (y + ni)%nat * D y (r - ni)%nat)%Qc)
        by (intros y _; rewrite inactive_fock_lin; ring).
      unfold q_matrix. assert (Q : Sigma na (fun w => Sigma na (fun x => Sigma na (fun y => D2 (r - ni)%nat w x y * V p (w + ni)%nat (x + ni)%nat (y + ni)%nat)))%Qc =
        (c * Sigma na (fun w => Sigma na (fun x => Sigma na (fun y => D2 (r - ni)%nat w x y * V1 p (w + ni)%nat (x + ni)%nat (y + ni)%nat))) +
         d * Sigma na (fun w => Sigma na (fun x => Sigma na (fun y => D2 (r - ni)%nat w x y * V2 p (w + ni)%nat (x + ni)%nat (y + ni)%nat))))%Qc).
      { apply Sigma_lin. intros w _. apply Sigma_lin. intros x _. apply Sigma_lin. intros y _. rewrite !HV. ring. }
      rewrite Q. ring.
  Qed.
End LIN.
Lemma rot_matrix_lin ni na nv c d k l m p q : (forall x, x < rot_size ni na nv -> nth x k 0%Qc = (c * nth x l 0 + d * nth x m 0)%Qc) ->
  rot_matrix ni na nv k p q = (c * rot_matrix ni na nv l p q + d * rot_matrix ni na nv m p q)%Qc.
Proof.
  intros H. unfold rot_matrix. destruct (rotatesb ni na nv p q) eqn:E1.
  - apply H. apply rot_index_bound. apply rotatesb_iff. exact E1.
  - destruct (rotatesb ni na nv q p) eqn:E2; [|ring]. rewrite H by (apply rot_index_bound; apply rotatesb_iff; exact E2). ring.
Qed.
Lemma hessian_linear no ni na nv T V LDV D LDD1 D2 LDD2 OG c d k l m HK HL HM : no = ni + na + nv -> 0 < no -> 0 < LDD1 ->
  fits2 T no no no -> fits4 V LDV no -> fits2 D LDD1 na na -> fits4 D2 LDD2 na ->
  let N := rot_size ni na nv in
  N <= length OG -> N <= length k -> N <= length l -> N <= length m -> N <= length HK -> N <= length HL -> N <= length HM ->
  (forall x, x < N -> nth x k 0%Qc = (c * nth x l 0 + d * nth x m 0)%Qc) ->
  exists hk hl hm,
    orb_orb_hessian_contract no ni na nv T no V LDV D LDD1 D2 LDD2 OG k HK = Ok hk /\
    orb_orb_hessian_contract no ni na nv T no V LDV D LDD1 D2 LDD2 OG l HL = Ok hl /\
    orb_orb_hessian_contract no ni na nv T no V LDV D LDD1 D2 LDD2 OG m HM = Ok hm /\
    forall x, x < N -> nth x hk 0%Qc = (c * nth x hl 0 + d * nth x hm 0)%Qc.
Proof.
  intros En H0 H1 HT HV HD HD2 N LG Lk Ll Lm LK LL LM Hk.
  destruct (hessian_ok no ni na nv T V LDV D LDD1 D2 LDD2 OG k HK) as (hk & E1 & _ & _ & A1); auto.
  destruct (hessian_ok no ni na nv T V LDV D LDD1 D2 LDD2 OG l HL) as (hl & E2 & _ & _ & A2); auto.
  destruct (hessian_ok no ni na nv T V LDV D LDD1 D2 LDD2 OG m HM) as (hm & E3 & _ & _ & A3); auto.
  exists hk, hl, hm. split; [exact E1|]. split; [exact E2|]. split; [exact E3|].
  intros x Hx. destruct (rot_index_onto ni na nv x Hx) as (p & q & R & <-). rewrite A1, A2, A3 by exact R. cbv zeta.
  set (K := rot_matrix ni na nv k). set (L := rot_matrix ni na nv l). set (M := rot_matrix ni na nv m). set (G := rot_matrix ni na nv OG).
  assert (HKL : forall p q, K p q = (c * L p q + d * M p q)%Qc) by (intros; apply rot_matrix_lin; exact Hk).
  assert (X2 : forall p q, one_index2 no K (at2 T no) p q = (c * one_index2 no L (at2 T no) p q + d * one_index2 no M (at2 T no) p q)%Qc).
  { intros. unfold one_index2. apply Sigma_lin. intros. rewrite !HKL. ring. }
  assert (X4 : forall p q r s, one_index4 no K (at4 V LDV) p q r s = (c * one_index4 no L (at4 V LDV) p q r s + d * one_index4 no M (at4 V LDV) p q r s)%Qc).
  { intros. unfold one_index4. apply Sigma_lin. intros. rewrite !HKL. ring. }
  rewrite !(full_fock_lin ni na c d _ _ _ _ _ _ (at2 D LDD1) (at4 D2 LDD2) X2 X4).
  assert (XP : forall p q, product no G K p q = (c * product no G L p q + d * product no G M p q)%Qc) by (intros; unfold product; apply Sigma_lin; intros; rewrite HKL; ring).
  rewrite !XP. ring.
Qed.

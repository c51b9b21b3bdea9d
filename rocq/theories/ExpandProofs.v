(** Second-order expansions; the energy along an orbital rotation (C55). *)
From Coq Require Import QArith Qcanon Qcabs Bool Lia.
From Verif Require Import Base Sums Dense DenseSpec DenseProofs FockMatProofs RotProofs LinRespProofs HessProofs.
Local Open Scope nat_scope.
Local Open Scope Qc_scope.

Definition bounded (f : Qc -> Qc) : Prop := exists M, 0 <= M /\ forall t, Qcabs t <= 1 -> Qcabs (f t) <= M.
Definition small (f : Qc -> Qc) : Prop := exists M, 0 <= M /\ forall t, Qcabs t <= 1 -> Qcabs (f t) <= M * Qcabs (t * t * t).

Lemma Qcle_0_mult a b : 0 <= a -> 0 <= b -> 0 <= a * b.
Proof. intros H H'. replace 0 with (0 * b) by ring. apply Qcmult_le_compat_r; auto. Qed.
Lemma Qcle_0_plus a b : 0 <= a -> 0 <= b -> 0 <= a + b.
Proof. intros H H'. replace 0 with (0 + 0) by ring. apply Qcplus_le_compat; auto. Qed.
Lemma Qcmult_le_compat a b c d : 0 <= a -> 0 <= c -> a <= b -> c <= d -> a * c <= b * d.
Proof.
  intros H H' H1 H2. apply Qcle_trans with (b * c).
  - apply Qcmult_le_compat_r; auto.
  - rewrite (Qcmult_comm b c), (Qcmult_comm b d). apply Qcmult_le_compat_r; auto. apply Qcle_trans with a; auto.
Qed.
Lemma cube_le t : Qcabs t <= 1 -> Qcabs (t * t * t) <= 1.
Proof.
  intros H. rewrite !Qcabs_Qcmult. replace 1 with (1 * 1 * 1) by ring.
  apply Qcmult_le_compat; auto using Qcabs_nonneg, Qcle_0_mult. apply Qcmult_le_compat; auto using Qcabs_nonneg.
Qed.
Lemma bounded_const c : bounded (fun _ => c).
Proof. exists (Qcabs c). split; [apply Qcabs_nonneg|]. intros. apply Qcle_refl. Qed.
Lemma bounded_id : bounded (fun t => t).
Proof. exists 1. split; [discriminate|auto]. Qed.
Lemma bounded_plus f g : bounded f -> bounded g -> bounded (fun t => f t + g t).
Proof.
  intros (M & H0 & H) (N & H0' & H'). exists (M + N). split; [apply Qcle_0_plus; auto|]. intros t Ht. eapply Qcle_trans; [apply Qcabs_triangle|].
  apply Qcplus_le_compat; auto.
Qed.
Lemma bounded_mult f g : bounded f -> bounded g -> bounded (fun t => f t * g t).
Proof.
  intros (M & H0 & H) (N & H0' & H'). exists (M * N). split; [apply Qcle_0_mult; auto|]. intros t Ht. rewrite Qcabs_Qcmult. apply Qcmult_le_compat; auto using Qcabs_nonneg.
Qed.
Lemma small_ext f g : (forall t, f t = g t) -> small f -> small g.
Proof. intros E (M & H0 & H). exists M. split; auto. intros t Ht. rewrite <- E. auto. Qed.
Lemma small_plus f g : small f -> small g -> small (fun t => f t + g t).
Proof.
  intros (M & H0 & H) (N & H0' & H'). exists (M + N). split; [apply Qcle_0_plus; auto|]. intros t Ht. eapply Qcle_trans; [apply Qcabs_triangle|].
  replace ((M + N) * Qcabs (t * t * t)) with (M * Qcabs (t * t * t) + N * Qcabs (t * t * t)) by ring. apply Qcplus_le_compat; auto.
Qed.
Lemma small_mult f g : bounded f -> small g -> small (fun t => f t * g t).
Proof.
  intros (M & H0 & H) (N & H0' & H'). exists (M * N). split; [apply Qcle_0_mult; auto|]. intros t Ht. rewrite Qcabs_Qcmult.
  replace (M * N * Qcabs (t * t * t)) with (M * (N * Qcabs (t * t * t))) by ring. apply Qcmult_le_compat; auto using Qcabs_nonneg.
Qed.
Lemma small_cube : small (fun t => t * t * t).
Proof. exists 1. split; [discriminate|]. intros t _. rewrite Qcmult_1_l. apply Qcle_refl. Qed.
Lemma small_bounded f : small f -> bounded f.
Proof.
  intros (M & H0 & H). exists M. split; auto. intros t Ht. eapply Qcle_trans; [apply H; auto|]. pose proof (cube_le t Ht).
  replace M with (M * 1) at 2 by ring. apply Qcmult_le_compat; auto using Qcabs_nonneg. apply Qcle_refl.
Qed.
Lemma bounded_ext f g : (forall t, f t = g t) -> bounded f -> bounded g.
Proof. intros E (M & H0 & H). exists M. split; auto. intros t Ht. rewrite <- E. auto. Qed.

Lemma expands_small f a b c : expands f a b c <-> small (fun t => f t - (a + t * b + t * t * c)).
Proof.
  split.
  - intros (M & H). exists (Qcabs M). split; [apply Qcabs_nonneg|]. intros t Ht. eapply Qcle_trans; [apply H; auto|].
    apply Qcmult_le_compat_r; [apply Qcle_Qcabs|apply Qcabs_nonneg].
  - intros (M & _ & H). exists M. auto.
Qed.
Lemma bounded_quad a b c : bounded (fun t => a + t * b + t * t * c).
Proof. repeat (apply bounded_plus || apply bounded_mult || apply bounded_const || apply bounded_id). Qed.
Lemma expands_bounded f a b c : expands f a b c -> bounded f.
Proof.
  intros H. apply expands_small, small_bounded in H. eapply bounded_ext; [|apply bounded_plus; [exact H|apply (bounded_quad a b c)]]. intros t. cbv beta. ring.
Qed.
Lemma expands_ext f g a b c a' b' c' : (forall t, f t = g t) -> a = a' -> b = b' -> c = c' -> expands f a b c -> expands g a' b' c'.
Proof. intros E -> -> -> (M & H). exists M. intros t Ht. rewrite <- E. auto. Qed.
Lemma expands_const a : expands (fun _ => a) a 0 0.
Proof. apply expands_small. exists 0. split; [apply Qcle_refl|]. intros t _. replace (a - (a + t * 0 + t * t * 0)) with 0 by ring. rewrite Qcmult_0_l, (Qcabs_pos 0) by apply Qcle_refl. apply Qcle_refl. Qed.
Lemma expands_plus f g a b c a' b' c' : expands f a b c -> expands g a' b' c' -> expands (fun t => f t + g t) (a + a') (b + b') (c + c').
Proof.
  intros H H'. apply expands_small. apply expands_small in H, H'. eapply small_ext; [|apply small_plus; [exact H|exact H']]. intros t. cbv beta. ring.
Qed.
Lemma expands_scale k f a b c : expands f a b c -> expands (fun t => k * f t) (k * a) (k * b) (k * c).
Proof.
  intros H. apply expands_small. apply expands_small in H. eapply small_ext; [|apply small_mult; [apply (bounded_const k)|exact H]]. intros t. cbv beta. ring.
Qed.
Lemma expands_minus f g a b c a' b' c' : expands f a b c -> expands g a' b' c' -> expands (fun t => f t - g t) (a - a') (b - b') (c - c').
Proof.
  intros H H'. eapply expands_ext; [| | | |apply expands_plus; [exact H|apply (expands_scale (- (1))); exact H']]; intros; cbv beta; ring.
Qed.
Lemma expands_mult f g a b c a' b' c' : expands f a b c -> expands g a' b' c' ->
  expands (fun t => f t * g t) (a * a') (a * b' + b * a') (a * c' + b * b' + c * a').
Proof.
  intros H H'. apply expands_small. pose proof (expands_bounded _ _ _ _ H) as B. apply expands_small in H, H'.
  eapply small_ext; [|apply small_plus; [apply small_plus; [apply small_mult; [exact B|exact H']|apply small_mult; [apply (bounded_quad a' b' c')|exact H]]|
     apply small_mult; [apply (bounded_plus (fun _ => b * c' + c * b') (fun t => t * (c * c'))); [apply bounded_const|apply bounded_mult; [apply bounded_id|apply bounded_const]]|apply small_cube]]].
  intros t. cbv beta. ring.
Qed.
Lemma expands_Sigma n f a b c : (forall i, (i < n)%nat -> expands (f i) (a i) (b i) (c i)) ->
  expands (fun t => Sigma n (fun i => f i t)) (Sigma n a) (Sigma n b) (Sigma n c).
Proof.
  induction n as [|n IH]; intros H.
  - exact (expands_const 0).
  - assert (E : forall g, Sigma (S n) g = Sigma n g + g n).
    { intros g. replace (S n) with (n + 1)%nat by lia. rewrite Sigma_split. f_equal. unfold Sigma. cbn. ring. }
    rewrite !E. eapply expands_ext; [|reflexivity|reflexivity|reflexivity|apply expands_plus; [apply IH; intros; apply H; lia|apply H; lia]].
    intros t. cbv beta. symmetry. apply E.
Qed.

(** *** the energy is linear in the integrals *)
Definition expands2 (n : nat) (T : Qc -> nat -> nat -> Qc) T0 T1 T2 : Prop := forall p q, (p < n)%nat -> (q < n)%nat -> expands (fun t => T t p q) (T0 p q) (T1 p q) (T2 p q).
Definition expands4 (n : nat) (V : Qc -> nat -> nat -> nat -> nat -> Qc) V0 V1 V2 : Prop := forall p q r s, (p < n)%nat -> (q < n)%nat -> (r < n)%nat -> (s < n)%nat ->
  expands (fun t => V t p q r s) (V0 p q r s) (V1 p q r s) (V2 p q r s).
Lemma expands_energy ni na n T T0 T1 T2 V V0 V1 V2 D D2 : (ni + na <= n)%nat -> expands2 n T T0 T1 T2 -> expands4 n V V0 V1 V2 ->
  expands (fun t => total_energy ni na (T t) (V t) D D2) (total_energy ni na T0 V0 D D2) (total_energy ni na T1 V1 D D2) (total_energy ni na T2 V2 D D2).
Proof.
  intros Hn HT HV. unfold total_energy, core_energy, valence_energy, shift2, shift4, inactive_fock.
  assert (G : forall i p q, (i < ni)%nat -> (p < n)%nat -> (q < n)%nat -> expands (fun t => two * V t p q i i - V t p i i q) (two * V0 p q i i - V0 p i i q) (two * V1 p q i i - V1 p i i q) (two * V2 p q i i - V2 p i i q)).
  { intros. apply (expands_minus (fun t => two * V t p q i i) (fun t => V t p i i q)); [apply (expands_scale two (fun t => V t p q i i)); apply HV; lia|apply HV; lia]. }
  apply expands_plus; apply expands_plus.
  - apply (expands_Sigma ni (fun i t => two * T t i i)). intros i Hi. apply (expands_scale two (fun t => T t i i)). apply HT; lia.
  - apply (expands_Sigma ni (fun i t => Sigma ni (fun j => two * V t i i j j - V t i j j i))). intros i Hi.
    apply (expands_Sigma ni (fun j t => two * V t i i j j - V t i j j i)). intros j Hj. apply G; lia.
  - apply (expands_Sigma na (fun x t => Sigma na (fun y => D x y * (T t (x + ni)%nat (y + ni)%nat + Sigma ni (fun i => two * V t (x + ni)%nat (y + ni)%nat i i - V t (x + ni)%nat i i (y + ni)%nat))))). intros x Hx.
    apply (expands_Sigma na (fun y t => D x y * (T t (x + ni)%nat (y + ni)%nat + Sigma ni (fun i => two * V t (x + ni)%nat (y + ni)%nat i i - V t (x + ni)%nat i i (y + ni)%nat)))). intros y Hy.
    apply (expands_scale (D x y) (fun t => T t (x + ni)%nat (y + ni)%nat + Sigma ni (fun i => two * V t (x + ni)%nat (y + ni)%nat i i - V t (x + ni)%nat i i (y + ni)%nat))).
    apply expands_plus; [apply HT; lia|]. apply (expands_Sigma ni (fun i t => two * V t (x + ni)%nat (y + ni)%nat i i - V t (x + ni)%nat i i (y + ni)%nat)). intros i Hi. apply G; lia.
  - do 4 (match goal with |- expands (fun t => Sigma na (fun v => @?f v t)) _ _ _ => apply (expands_Sigma na f) end; intros ? ?).
    match goal with |- expands (fun t => D2 ?v ?w ?x ?y * _) _ _ _ => apply (expands_scale (D2 v w x y) (fun t => V t (v + ni)%nat (w + ni)%nat (x + ni)%nat (y + ni)%nat)) end. apply HV; lia.
Qed.
Lemma total_energy_scale c ni na T V D D2 : total_energy ni na (fun p q => c * T p q) (fun p q r s => c * V p q r s) D D2 = c * total_energy ni na T V D D2.
Proof.
  assert (F : forall p q, inactive_fock ni (fun p q => c * T p q) (fun p q r s => c * V p q r s) p q = c * inactive_fock ni T V p q).
  { intros p q. unfold inactive_fock. rewrite Qcmult_plus_distr_r, <- Sigma_scale. f_equal. apply Sigma_ext. intros i _. ring. }
  unfold total_energy, core_energy, valence_energy, shift2, shift4. rewrite !Qcmult_plus_distr_r. f_equal; f_equal.
  - rewrite <- Sigma_scale. apply Sigma_ext. intros i _. ring.
  - rewrite <- Sigma_scale. apply Sigma_ext. intros i _. rewrite <- Sigma_scale. apply Sigma_ext. intros j _. ring.
  - rewrite <- Sigma_scale. apply Sigma_ext. intros i _. rewrite <- Sigma_scale. apply Sigma_ext. intros j _. rewrite F. ring.
  - do 4 (rewrite <- Sigma_scale; apply Sigma_ext; intros ? _). ring.
Qed.

(** *** contraction with a rotation *)
Definition kop (n : nat) (K : nat -> nat -> Qc) (f : nat -> Qc) (p : nat) : Qc := Sigma n (fun o => K p o * f o).
Lemma Sigma_delta n p f : (p < n)%nat -> Sigma n (fun i => (if (i =? p)%nat then 1 else 0) * f i) = f p.
Proof.
  induction n as [|n IH]; intros H; [lia|]. replace (S n) with (n + 1)%nat by lia. rewrite Sigma_split.
  assert (E1 : Sigma 1 (fun i => (if (i + n =? p)%nat then 1 else 0) * f (i + n)%nat) = (if (n =? p)%nat then 1 else 0) * f n) by (unfold Sigma; cbn [seq sum Nat.add]; ring).
  rewrite E1. destruct (Nat.eqb_spec n p) as [->|Ne].
  - rewrite (Sigma_ext p _ (fun _ => 0)); [rewrite Sigma_0; ring|]. intros i Hi. destruct (Nat.eqb_spec i p); [lia|]. ring.
  - rewrite IH by lia. ring.
Qed.
Section Rot.
  Variables (n : nat) (K : nat -> nat -> Qc) (U : Qc -> nat -> nat -> Qc).
  Hypothesis HK : forall p q, (p < n)%nat -> (q < n)%nat -> K q p = - K p q.
  Hypothesis HU : rotation_family n U K.
  Lemma kop_kop f p : (p < n)%nat -> Sigma n (fun i => product n K K i p * f i) = kop n K (kop n K f) p.
  Proof.
    intros Hp. unfold kop, product. rewrite (Sigma_ext n _ (fun i => Sigma n (fun l => K p l * (K l i * f i)))).
    - rewrite Sigma_swap. apply Sigma_ext. intros l Hl. apply Sigma_scale.
    - intros i Hi. rewrite <- Sigma_scale_r. apply Sigma_ext. intros l Hl. rewrite (HK l i), (HK p l) by auto. ring.
  Qed.
  Lemma expands_contract F a b c2 p : (p < n)%nat -> (forall i, (i < n)%nat -> expands (fun t => F t i) (a i) (b i) (half * c2 i)) ->
    expands (fun t => contract n (U t) (F t) p) (a p) (b p + kop n K a p) (half * (c2 p + two * kop n K b p + kop n K (kop n K a) p)).
  Proof.
    intros Hp HF. unfold contract.
    eapply expands_ext; [intros; reflexivity| | | |apply (expands_Sigma n (fun i t => U t i p * F t i)
       (fun i => (if (i =? p)%nat then 1 else 0) * a i) (fun i => (if (i =? p)%nat then 1 else 0) * b i + (- K i p) * a i)
       (fun i => (if (i =? p)%nat then 1 else 0) * (half * c2 i) + (- K i p) * b i + (half * product n K K i p) * a i))].
    - apply Sigma_delta; auto.
    - rewrite Sigma_plus, Sigma_delta by auto. f_equal. unfold kop. apply Sigma_ext. intros i Hi. rewrite (HK i p) by auto. ring.
    - rewrite !Sigma_plus, Sigma_delta by auto.
      rewrite (Sigma_ext n (fun i => (- K i p) * b i) (fun i => K p i * b i)) by (intros i Hi; rewrite (HK i p) by auto; ring).
      rewrite (Sigma_ext n (fun i => half * product n K K i p * a i) (fun i => half * (product n K K i p * a i))) by (intros; ring).
      rewrite Sigma_scale, kop_kop by auto. fold (kop n K b p). rewrite <- (two_half (kop n K b p)) at 1. ring.
    - intros i Hi. eapply expands_ext; [intros; reflexivity| | | |apply expands_mult; [apply (HU i p); auto|apply HF; auto]]; cbv beta; ring.
  Qed.
End Rot.
Lemma kop_ext n K f g p : (forall i, (i < n)%nat -> f i = g i) -> kop n K f p = kop n K g p.
Proof. intros H. unfold kop. apply Sigma_ext. intros i Hi. rewrite H by auto. reflexivity. Qed.
Lemma kop_plus n K f g p : kop n K (fun i => f i + g i) p = kop n K f p + kop n K g p.
Proof. unfold kop. rewrite <- Sigma_plus. apply Sigma_ext. intros. ring. Qed.
Lemma kop_scale n K c f p : kop n K (fun i => c * f i) p = c * kop n K f p.
Proof. unfold kop. rewrite <- Sigma_scale. apply Sigma_ext. intros. ring. Qed.
Lemma kop_comm n K f p q : kop n K (fun i => kop n K (f i) q) p = kop n K (fun j => kop n K (fun i => f i j) p) q.
Proof.
  unfold kop. rewrite (Sigma_ext n _ (fun i => Sigma n (fun j => K p i * (K q j * f i j)))) by (intros; symmetry; apply Sigma_scale).
  rewrite Sigma_swap. apply Sigma_ext. intros j _. rewrite <- Sigma_scale. apply Sigma_ext. intros i _. ring.
Qed.
Lemma one_index2_kop n K T p q : one_index2 n K T p q = kop n K (fun o => T o q) p + kop n K (T p) q.
Proof. unfold one_index2, kop. apply Sigma_plus. Qed.
Lemma one_index4_kop n K V p q r s : one_index4 n K V p q r s =
  kop n K (fun o => V o q r s) p + kop n K (fun o => V p o r s) q + kop n K (fun o => V p q o s) r + kop n K (V p q r) s.
Proof. unfold one_index4, kop. rewrite !Sigma_plus. reflexivity. Qed.
Lemma rotated2 n K U T : (forall p q, (p < n)%nat -> (q < n)%nat -> K q p = - K p q) -> rotation_family n U K ->
  expands2 n (fun t => congruence2 n (U t) T) T (one_index2 n K T) (fun p q => half * one_index2 n K (one_index2 n K T) p q).
Proof.
  intros HK HU p q Hp Hq.
  eapply expands_ext; [intros t; symmetry; apply congruence2_contract| | | |
    apply (expands_contract n K U HK HU (fun t i => contract n (U t) (T i) q) (fun i => T i q) (fun i => kop n K (T i) q) (fun i => kop n K (kop n K (T i)) q)); auto].
  - reflexivity.
  - rewrite one_index2_kop. ring.
  - f_equal. rewrite one_index2_kop.
    rewrite (kop_ext n K (fun o => one_index2 n K T o q) (fun o => kop n K (fun o' => T o' q) o + kop n K (T o) q)) by (intros; apply one_index2_kop).
    rewrite (kop_ext n K (one_index2 n K T p) (fun o => kop n K (fun o' => T o' o) p + kop n K (T p) o)) by (intros; apply one_index2_kop).
    rewrite !kop_plus. rewrite (kop_comm n K T p q). unfold two.
    change (kop n K (fun o => kop n K (fun o' => T o' q) o) p) with (kop n K (kop n K (fun i => T i q)) p).
    change (kop n K (fun o => kop n K (T p) o) q) with (kop n K (kop n K (T p)) q). ring.
  - intros i Hi. eapply expands_ext; [intros; reflexivity| | | |
      apply (expands_contract n K U HK HU (fun t j => T i j) (T i) (fun _ => 0) (fun _ => 0)); auto].
    + reflexivity.
    + ring.
    + assert (Z : kop n K (fun _ => 0) q = 0) by (unfold kop; rewrite (Sigma_ext n _ (fun _ => 0)) by (intros; ring); apply Sigma_0). rewrite Z. ring.
    + intros j Hj. eapply expands_ext; [| | | |apply (expands_const (T i j))]; auto. ring.
Qed.
Section Rot4.
  Variables (n : nat) (K : nat -> nat -> Qc).
  Definition k1 (V : nat -> nat -> nat -> nat -> Qc) p q r s := kop n K (fun o => V o q r s) p.
  Definition k2 (V : nat -> nat -> nat -> nat -> Qc) p q r s := kop n K (fun o => V p o r s) q.
  Definition k3 (V : nat -> nat -> nat -> nat -> Qc) p q r s := kop n K (fun o => V p q o s) r.
  Definition k4 (V : nat -> nat -> nat -> nat -> Qc) p q r s := kop n K (V p q r) s.
  Lemma k21 V p q r s : k2 (k1 V) p q r s = k1 (k2 V) p q r s. Proof. apply (kop_comm n K (fun j i => V i j r s)). Qed.
  Lemma k31 V p q r s : k3 (k1 V) p q r s = k1 (k3 V) p q r s. Proof. apply (kop_comm n K (fun j i => V i q j s)). Qed.
  Lemma k41 V p q r s : k4 (k1 V) p q r s = k1 (k4 V) p q r s. Proof. apply (kop_comm n K (fun j i => V i q r j)). Qed.
  Lemma k32 V p q r s : k3 (k2 V) p q r s = k2 (k3 V) p q r s. Proof. apply (kop_comm n K (fun j i => V p i j s)). Qed.
  Lemma k42 V p q r s : k4 (k2 V) p q r s = k2 (k4 V) p q r s. Proof. apply (kop_comm n K (fun j i => V p i r j)). Qed.
  Lemma k43 V p q r s : k4 (k3 V) p q r s = k3 (k4 V) p q r s. Proof. apply (kop_comm n K (fun j i => V p q i j)). Qed.
  Lemma one_index4_k V p q r s : one_index4 n K V p q r s = k1 V p q r s + k2 V p q r s + k3 V p q r s + k4 V p q r s.
  Proof. apply one_index4_kop. Qed.
  Lemma one_index4_twice V p q r s : one_index4 n K (one_index4 n K V) p q r s =
    k1 (k1 V) p q r s + k2 (k2 V) p q r s + k3 (k3 V) p q r s + k4 (k4 V) p q r s +
    two * (k1 (k2 V) p q r s + k1 (k3 V) p q r s + k1 (k4 V) p q r s + k2 (k3 V) p q r s + k2 (k4 V) p q r s + k3 (k4 V) p q r s).
  Proof.
    rewrite one_index4_kop.
    rewrite (kop_ext n K (fun o => one_index4 n K V o q r s) (fun o => k1 V o q r s + k2 V o q r s + k3 V o q r s + k4 V o q r s)) by (intros; apply one_index4_k).
    rewrite (kop_ext n K (fun o => one_index4 n K V p o r s) (fun o => k1 V p o r s + k2 V p o r s + k3 V p o r s + k4 V p o r s)) by (intros; apply one_index4_k).
    rewrite (kop_ext n K (fun o => one_index4 n K V p q o s) (fun o => k1 V p q o s + k2 V p q o s + k3 V p q o s + k4 V p q o s)) by (intros; apply one_index4_k).
    rewrite (kop_ext n K (one_index4 n K V p q r) (fun o => k1 V p q r o + k2 V p q r o + k3 V p q r o + k4 V p q r o)) by (intros; apply one_index4_k).
    rewrite !kop_plus.
    transitivity ((k1 (k1 V) p q r s + k1 (k2 V) p q r s + k1 (k3 V) p q r s + k1 (k4 V) p q r s) + (k2 (k1 V) p q r s + k2 (k2 V) p q r s + k2 (k3 V) p q r s + k2 (k4 V) p q r s) + (k3 (k1 V) p q r s + k3 (k2 V) p q r s + k3 (k3 V) p q r s + k3 (k4 V) p q r s) + (k4 (k1 V) p q r s + k4 (k2 V) p q r s + k4 (k3 V) p q r s + k4 (k4 V) p q r s)); [reflexivity|].
    rewrite k21, k31, k41, k32, k42, k43. unfold two. ring.
  Qed.
End Rot4.
Lemma rotated4 n K U V : (forall p q, (p < n)%nat -> (q < n)%nat -> K q p = - K p q) -> rotation_family n U K ->
  expands4 n (fun t => congruence4 n (U t) V) V (one_index4 n K V) (fun p q r s => half * one_index4 n K (one_index4 n K V) p q r s).
Proof.
  intros HK HU p q r s Hp Hq Hr Hs.
  assert (L4 : forall i j k, expands (fun t => contract n (U t) (V i j k) s) (V i j k s) (k4 n K V i j k s) (half * k4 n K (k4 n K V) i j k s)).
  { intros i j k. eapply expands_ext; [intros; reflexivity| | | |
      apply (expands_contract n K U HK HU (fun t l => V i j k l) (V i j k) (fun _ => 0) (fun _ => 0)); auto].
    - reflexivity.
    - unfold k4. ring.
    - assert (Z : kop n K (fun _ => 0) s = 0) by (unfold kop; rewrite (Sigma_ext n _ (fun _ => 0)) by (intros; ring); apply Sigma_0). rewrite Z.
      change (kop n K (kop n K (V i j k)) s) with (k4 n K (k4 n K V) i j k s). ring.
    - intros l Hl. eapply expands_ext; [| | | |apply (expands_const (V i j k l))]; auto. ring. }
  assert (L3 : forall i j, expands (fun t => contract n (U t) (fun k => contract n (U t) (V i j k) s) r) (V i j r s)
     (k4 n K V i j r s + k3 n K V i j r s) (half * (k4 n K (k4 n K V) i j r s + two * k3 n K (k4 n K V) i j r s + k3 n K (k3 n K V) i j r s))).
  { intros i j. apply (expands_contract n K U HK HU (fun t k => contract n (U t) (V i j k) s) (fun k => V i j k s) (fun k => k4 n K V i j k s) (fun k => k4 n K (k4 n K V) i j k s)); auto. }
  assert (L2 : forall i, expands (fun t => contract n (U t) (fun j => contract n (U t) (fun k => contract n (U t) (V i j k) s) r) q) (V i q r s)
     (k4 n K V i q r s + k3 n K V i q r s + k2 n K V i q r s)
     (half * (k4 n K (k4 n K V) i q r s + two * k3 n K (k4 n K V) i q r s + k3 n K (k3 n K V) i q r s + two * (k2 n K (k4 n K V) i q r s + k2 n K (k3 n K V) i q r s) + k2 n K (k2 n K V) i q r s))).
  { intros i. eapply expands_ext; [intros; reflexivity| | | |
      apply (expands_contract n K U HK HU (fun t j => contract n (U t) (fun k => contract n (U t) (V i j k) s) r) (fun j => V i j r s) (fun j => k4 n K V i j r s + k3 n K V i j r s)
        (fun j => k4 n K (k4 n K V) i j r s + two * k3 n K (k4 n K V) i j r s + k3 n K (k3 n K V) i j r s)); auto]; try reflexivity.
    rewrite kop_plus. reflexivity. }
  eapply expands_ext; [intros t; symmetry; apply congruence4_contract| | | |
    apply (expands_contract n K U HK HU (fun t i => contract n (U t) (fun j => contract n (U t) (fun k => contract n (U t) (V i j k) s) r) q) (fun i => V i q r s)
      (fun i => k4 n K V i q r s + k3 n K V i q r s + k2 n K V i q r s)
      (fun i => k4 n K (k4 n K V) i q r s + two * k3 n K (k4 n K V) i q r s + k3 n K (k3 n K V) i q r s + two * (k2 n K (k4 n K V) i q r s + k2 n K (k3 n K V) i q r s) + k2 n K (k2 n K V) i q r s)); auto].
  - reflexivity.
  - rewrite one_index4_k. unfold k1, k2, k3, k4. ring.
  - f_equal. rewrite one_index4_twice, !kop_plus.
    change (kop n K (kop n K (fun i => V i q r s)) p) with (k1 n K (k1 n K V) p q r s).
    change (kop n K (fun i => k4 n K V i q r s) p) with (k1 n K (k4 n K V) p q r s).
    change (kop n K (fun i => k3 n K V i q r s) p) with (k1 n K (k3 n K V) p q r s).
    change (kop n K (fun i => k2 n K V i q r s) p) with (k1 n K (k2 n K V) p q r s). ring.
Qed.

(** *** the energy along a rotation *)
Lemma congruence4_pair n C V : pair_symmetric n V -> pair_symmetric n (congruence4 n C V).
Proof.
  intros H p q r s _ _ _ _. unfold congruence4.
  rewrite (Sigma_ext n _ (fun i => Sigma n (fun k => Sigma n (fun l => Sigma n (fun j => C i p * C j q * C k r * C l s * V i j k l))))) by (intros; apply Sigma_swap3).
  rewrite Sigma_swap3. apply Sigma_ext2. intros k l Hk Hl. apply Sigma_ext2. intros i j Hi Hj. rewrite (H i j k l) by auto. ring.
Qed.
Lemma full_sum no ni na K F : (ni + na <= no)%nat ->
  Sigma no (fun p => Sigma no (fun q => two * (K p q * (if (p <? ni + na)%nat then F p q else 0)))) = Sigma (ni + na) (fun p => Sigma no (fun o => two * (K p o * F p o))).
Proof.
  intros Hn. replace no with (ni + na + (no - (ni + na)))%nat at 1 by lia. rewrite Sigma_split.
  rewrite (Sigma_ext (no - (ni + na)) _ (fun _ => 0)).
  - rewrite Sigma_0, Qcplus_0_r. apply Sigma_ext2. intros p q Hp Hq. destruct (Nat.ltb_spec p (ni + na)); [reflexivity|lia].
  - intros p Hp. rewrite (Sigma_ext no _ (fun _ => 0)); [apply Sigma_0|]. intros q Hq. destruct (Nat.ltb_spec (p + (ni + na)) (ni + na)); [lia|]. ring.
Qed.
Lemma energy_along_rotation no ni na nv T V D D2 k g h U : no = (ni + na + nv)%nat ->
  symmetric2 no T -> eightfold no V -> symmetric2 na D -> fourfold na D2 ->
  let K := rot_matrix ni na nv k in rotation_family no U K ->
  (forall p q, rotates ni na nv p q -> nth (rot_index ni na nv p q) g 0 = two * (full_fock ni na T V D D2 p q - full_fock ni na T V D D2 q p)) ->
  (forall p q, rotates ni na nv p q -> nth (rot_index ni na nv p q) h 0 =
     (let F := full_fock ni na (one_index2 no K T) (one_index4 no K V) D D2 in
      two * (F p q - F q p) + (product no (rot_matrix ni na nv g) K p q - product no (rot_matrix ni na nv g) K q p))) ->
  expands (fun t => total_energy ni na (congruence2 no (U t) T) (congruence4 no (U t) V) D D2)
    (total_energy ni na T V D D2) (dot (rot_size ni na nv) k g) (half * dot (rot_size ni na nv) k h).
Proof.
  intros En HT HV HD HD2 K HU Hg Hh.
  assert (HK : forall p q, (p < no)%nat -> (q < no)%nat -> K q p = - K p q) by (intros; apply rot_matrix_anti).
  eapply expands_ext; [intros; reflexivity|reflexivity| | |apply (expands_energy ni na no); [lia|apply (rotated2 no K U T HK HU)|apply (rotated4 no K U V HK HU)]].
  - rewrite (linear_response no ni na K T V D D2) by (auto; lia). rewrite (dot_gradient ni na nv k g _ Hg). rewrite <- En. fold K.
    symmetry. unfold full_fock. apply full_sum. lia.
  - rewrite (total_energy_scale half). f_equal.
    rewrite (linear_response no ni na K (one_index2 no K T) (one_index4 no K V) D D2) by (auto using one_index2_sym, one_index4_eight; lia).
    set (F := full_fock ni na (one_index2 no K T) (one_index4 no K V) D D2) in *.
    (* split h into its two parts *)
    set (idx := fun x => nth x h 0).
    assert (Sp : dot (rot_size ni na nv) k h =
      pair_sum ni na nv (fun p q => K p q * (two * (F p q - F q p))) + pair_sum ni na nv (fun p q => K p q * (product no (rot_matrix ni na nv g) K p q - product no (rot_matrix ni na nv g) K q p))).
    { unfold dot. rewrite (rot_sum ni na nv _ (fun p q => K p q * (two * (F p q - F q p) + (product no (rot_matrix ni na nv g) K p q - product no (rot_matrix ni na nv g) K q p)))).
      - unfold pair_sum. rewrite <- Sigma_plus. apply Sigma_ext. intros p _. rewrite <- Sigma_plus. apply Sigma_ext. intros q _. destruct (rotatesb ni na nv p q); ring.
      - intros p q R. rewrite Hh by auto. unfold K at 1. rewrite <- (rot_matrix_pair ni na nv k p q R). reflexivity. }
    rewrite Sp.
    assert (Z : pair_sum ni na nv (fun p q => K p q * (product no (rot_matrix ni na nv g) K p q - product no (rot_matrix ni na nv g) K q p)) = 0).
    { rewrite En. pose proof (commutator_zero ni na nv k g) as C. exact C. }
    rewrite Z, Qcplus_0_r. unfold full_fock in F.
    transitivity (two * Sigma no (fun p => Sigma no (fun q => K p q * F p q))).
    + rewrite <- Sigma_scale. rewrite <- (full_sum no ni na K (generalized_fock ni na (one_index2 no K T) (one_index4 no K V) D D2)) by lia.
      apply Sigma_ext. intros p _. rewrite <- Sigma_scale. reflexivity.
    + pose proof (anti_pair_sum ni na nv k F) as AP. cbv zeta in AP. rewrite <- En in AP. fold K in AP. rewrite AP.
      unfold pair_sum. rewrite <- Sigma_scale. apply Sigma_ext. intros p _. rewrite <- Sigma_scale. apply Sigma_ext. intros q _. destruct (rotatesb ni na nv p q); ring.
Qed.

(** How far the orbital Hessian product is from symmetric (C55). *)
From Coq Require Import QArith Qcanon Qcabs Bool Lia.
From Verif Require Import Base Sums Ham HamProofs Asci Mem MemProofs SparseProofs1 RdmIOProofs Dense DenseSpec DenseProofs FockMatProofs RotProofs LinRespProofs HessProofs ExpandProofs.
Local Open Scope Qc_scope.

Lemma total_energy_minus ni na T V T' V' D D2 :
  total_energy ni na (fun p q => T p q - T' p q) (fun p q r s => V p q r s - V' p q r s) D D2 = total_energy ni na T V D D2 - total_energy ni na T' V' D D2.
Proof.
  assert (F : forall p q, inactive_fock ni (fun p q => T p q - T' p q) (fun p q r s => V p q r s - V' p q r s) p q = inactive_fock ni T V p q - inactive_fock ni T' V' p q).
  { intros p q. unfold inactive_fock. rewrite (Sigma_ext ni _ (fun i => (two * V p q i i - V p i i q) - (two * V' p q i i - V' p i i q))) by (intros; ring).
    rewrite Sigma_minus. ring. }
  unfold total_energy, core_energy, valence_energy, shift2, shift4.
  match goal with |- ?a + ?b + (?c + ?d) = ?a1 + ?b1 + (?c1 + ?d1) - (?a2 + ?b2 + (?c2 + ?d2)) =>
    transitivity ((a1 - a2) + (b1 - b2) + ((c1 - c2) + (d1 - d2))); [f_equal; f_equal|ring] end.
  - rewrite <- Sigma_minus. apply Sigma_ext. intros. ring.
  - rewrite <- Sigma_minus. apply Sigma_ext. intros i _. rewrite <- Sigma_minus. apply Sigma_ext. intros. ring.
  - rewrite <- Sigma_minus. apply Sigma_ext. intros i _. rewrite <- Sigma_minus. apply Sigma_ext. intros j _. rewrite F. ring.
  - do 4 (rewrite <- Sigma_minus; apply Sigma_ext; intros ? _). ring.
Qed.
Lemma total_energy_ext no ni na T V T' V' D D2 : (ni + na <= no)%nat -> (forall p q, (p < no)%nat -> (q < no)%nat -> T p q = T' p q) ->
  (forall p q r s, (p < no)%nat -> (q < no)%nat -> (r < no)%nat -> (s < no)%nat -> V p q r s = V' p q r s) ->
  total_energy ni na T V D D2 = total_energy ni na T' V' D D2.
Proof.
  intros Hn HT HV. unfold total_energy, core_energy, valence_energy, shift2, shift4. f_equal; f_equal.
  - apply Sigma_ext. intros i Hi. rewrite HT by lia. reflexivity.
  - apply Sigma_ext2. intros i j Hi Hj. rewrite !HV by lia. reflexivity.
  - apply Sigma_ext2. intros i j Hi Hj. rewrite (inactive_fock_ext no ni T V T' V') by (auto; lia). reflexivity.
  - apply Sigma_ext2. intros a b Ha Hb. apply Sigma_ext2. intros c d Hc Hd. rewrite HV by lia. reflexivity.
Qed.
Definition comm (n : nat) (L K : nat -> nat -> Qc) p q : Qc := product n L K p q - product n K L p q.
Lemma kop_comm2 n L K f p q : kop n L (fun i => kop n K (f i) q) p = kop n K (fun j => kop n L (fun i => f i j) p) q.
Proof.
  unfold kop. rewrite (Sigma_ext n _ (fun i => Sigma n (fun j => L p i * (K q j * f i j)))) by (intros; symmetry; apply Sigma_scale).
  rewrite Sigma_swap. apply Sigma_ext. intros j _. rewrite <- Sigma_scale. apply Sigma_ext. intros i _. ring.
Qed.
Lemma kop_product n L K f p : kop n L (kop n K f) p = Sigma n (fun o => product n L K p o * f o).
Proof.
  unfold kop, product. rewrite (Sigma_ext n _ (fun i => Sigma n (fun j => L p i * (K i j * f j)))) by (intros; symmetry; apply Sigma_scale).
  rewrite Sigma_swap. apply Sigma_ext. intros j _. rewrite <- Sigma_scale_r. apply Sigma_ext. intros i _. ring.
Qed.
Lemma kop_commutator n L K f p : kop n L (kop n K f) p - kop n K (kop n L f) p = kop n (comm n L K) f p.
Proof. rewrite !kop_product, <- Sigma_minus. unfold kop, comm. apply Sigma_ext. intros. ring. Qed.
Lemma one_index2_comm n L K T p q :
  one_index2 n L (one_index2 n K T) p q - one_index2 n K (one_index2 n L T) p q = one_index2 n (comm n L K) T p q.
Proof.
  assert (E : forall L K, one_index2 n L (one_index2 n K T) p q =
     kop n L (kop n K (fun o => T o q)) p + kop n L (fun o => kop n K (T o) q) p + (kop n L (fun o => kop n K (fun o' => T o' o) p) q + kop n L (kop n K (T p)) q)).
  { intros L' K'. rewrite one_index2_kop.
    rewrite (kop_ext n L' (fun o => one_index2 n K' T o q) (fun o => kop n K' (fun o' => T o' q) o + kop n K' (T o) q)) by (intros; apply one_index2_kop).
    rewrite (kop_ext n L' (one_index2 n K' T p) (fun o => kop n K' (fun o' => T o' o) p + kop n K' (T p) o)) by (intros; apply one_index2_kop).
    rewrite !kop_plus. reflexivity. }
  rewrite !E, one_index2_kop, <- !kop_commutator.
  rewrite (kop_comm2 n L K T p q), (kop_comm2 n K L T p q). ring.
Qed.
Lemma one_index4_two n L K V p q r s : one_index4 n L (one_index4 n K V) p q r s =
  (k1 n L (k1 n K V) p q r s + k1 n L (k2 n K V) p q r s + k1 n L (k3 n K V) p q r s + k1 n L (k4 n K V) p q r s) +
  (k2 n L (k1 n K V) p q r s + k2 n L (k2 n K V) p q r s + k2 n L (k3 n K V) p q r s + k2 n L (k4 n K V) p q r s) +
  (k3 n L (k1 n K V) p q r s + k3 n L (k2 n K V) p q r s + k3 n L (k3 n K V) p q r s + k3 n L (k4 n K V) p q r s) +
  (k4 n L (k1 n K V) p q r s + k4 n L (k2 n K V) p q r s + k4 n L (k3 n K V) p q r s + k4 n L (k4 n K V) p q r s).
Proof.
  rewrite one_index4_kop.
  rewrite (kop_ext n L (fun o => one_index4 n K V o q r s) (fun o => k1 n K V o q r s + k2 n K V o q r s + k3 n K V o q r s + k4 n K V o q r s)) by (intros; apply one_index4_k).
  rewrite (kop_ext n L (fun o => one_index4 n K V p o r s) (fun o => k1 n K V p o r s + k2 n K V p o r s + k3 n K V p o r s + k4 n K V p o r s)) by (intros; apply one_index4_k).
  rewrite (kop_ext n L (fun o => one_index4 n K V p q o s) (fun o => k1 n K V p q o s + k2 n K V p q o s + k3 n K V p q o s + k4 n K V p q o s)) by (intros; apply one_index4_k).
  rewrite (kop_ext n L (one_index4 n K V p q r) (fun o => k1 n K V p q r o + k2 n K V p q r o + k3 n K V p q r o + k4 n K V p q r o)) by (intros; apply one_index4_k).
  rewrite !kop_plus. reflexivity.
Qed.
Lemma one_index4_comm n L K V p q r s :
  one_index4 n L (one_index4 n K V) p q r s - one_index4 n K (one_index4 n L V) p q r s = one_index4 n (comm n L K) V p q r s.
Proof.
  rewrite !one_index4_two, one_index4_k.
  assert (C1 : k1 n L (k1 n K V) p q r s - k1 n K (k1 n L V) p q r s = k1 n (comm n L K) V p q r s) by apply (kop_commutator n L K).
  assert (C2 : k2 n L (k2 n K V) p q r s - k2 n K (k2 n L V) p q r s = k2 n (comm n L K) V p q r s) by apply (kop_commutator n L K).
  assert (C3 : k3 n L (k3 n K V) p q r s - k3 n K (k3 n L V) p q r s = k3 n (comm n L K) V p q r s) by apply (kop_commutator n L K).
  assert (C4 : k4 n L (k4 n K V) p q r s - k4 n K (k4 n L V) p q r s = k4 n (comm n L K) V p q r s) by apply (kop_commutator n L K).
  rewrite <- C1, <- C2, <- C3, <- C4.
  assert (E : forall L K,
    k2 n L (k1 n K V) p q r s = k1 n K (k2 n L V) p q r s /\ k3 n L (k1 n K V) p q r s = k1 n K (k3 n L V) p q r s /\ k4 n L (k1 n K V) p q r s = k1 n K (k4 n L V) p q r s /\
    k3 n L (k2 n K V) p q r s = k2 n K (k3 n L V) p q r s /\ k4 n L (k2 n K V) p q r s = k2 n K (k4 n L V) p q r s /\ k4 n L (k3 n K V) p q r s = k3 n K (k4 n L V) p q r s).
  { intros L' K'. split; [apply (kop_comm2 n L' K' (fun j i => V i j r s))|].
    split; [apply (kop_comm2 n L' K' (fun j i => V i q j s))|]. split; [apply (kop_comm2 n L' K' (fun j i => V i q r j))|].
    split; [apply (kop_comm2 n L' K' (fun j i => V p i j s))|]. split; [apply (kop_comm2 n L' K' (fun j i => V p i r j))|].
    apply (kop_comm2 n L' K' (fun j i => V p q i j)). }
  destruct (E L K) as (a1 & a2 & a3 & a4 & a5 & a6). destruct (E K L) as (b1 & b2 & b3 & b4 & b5 & b6).
  rewrite a1, a2, a3, a4, a5, a6, b1, b2, b3, b4, b5, b6. ring.
Qed.

(** the inactive block of the generalised Fock matrix is symmetric, and the virtual one zero *)
Lemma fock_inactive_sym no ni na T V D D2 i j : (ni + na <= no)%nat -> symmetric2 no T -> eightfold no V -> symmetric2 na D -> (i < ni)%nat -> (j < ni)%nat ->
  generalized_fock ni na T V D D2 i j = generalized_fock ni na T V D D2 j i.
Proof.
  intros Hn HT HV HD Hi Hj. unfold generalized_fock. destruct (Nat.ltb_spec i ni), (Nat.ltb_spec j ni); try lia. f_equal.
  unfold inactive_fock, active_fock. f_equal.
  - f_equal; [apply HT; lia|]. apply Sigma_ext. intros k Hk. f_equal.
    + f_equal. apply (eight_qp no); auto; lia.
    + rewrite (eight_swap no V j k k i) by (auto; lia). rewrite (eight_qp no V k i j k), (eight_sr no V i k j k) by (auto; lia). reflexivity.
  - transitivity (Sigma na (fun v => Sigma na (fun w => D v w * V j i (v + ni)%nat (w + ni)%nat)) - Sigma na (fun v => Sigma na (fun w => half * (D v w * V j (w + ni)%nat (v + ni)%nat i)))).
    { rewrite <- Sigma_minus. apply Sigma_ext. intros v _. rewrite <- Sigma_minus. apply Sigma_ext. intros. ring. }
    rewrite (Sigma_swap na na (fun v w => half * _)). rewrite <- Sigma_minus. apply Sigma_ext. intros v Hv. rewrite <- Sigma_minus. apply Sigma_ext. intros w Hw.
    rewrite (HD w v) by auto. rewrite (eight_qp no V j i) by (auto; lia).
    rewrite (eight_swap no V j (v + ni)%nat (w + ni)%nat i) by (auto; lia). rewrite (eight_qp no V (w + ni)%nat i j), (eight_sr no V i (w + ni)%nat j) by (auto; lia). ring.
Qed.
Lemma dot_split ni na nv l k g h F : let n := (ni + na + nv)%nat in let L := rot_matrix ni na nv l in let K := rot_matrix ni na nv k in let G := rot_matrix ni na nv g in
  (forall p q, rotates ni na nv p q -> nth (rot_index ni na nv p q) h 0 = two * (F p q - F q p) + (product n G K p q - product n G K q p)) ->
  dot (rot_size ni na nv) l h = Sigma n (fun p => Sigma n (fun q => two * (L p q * F p q))) + Sigma n (fun p => Sigma n (fun q => L p q * product n G K p q)).
Proof.
  intros n L K G H.
  transitivity (pair_sum ni na nv (fun p q => two * (L p q * (F p q - F q p))) + pair_sum ni na nv (fun p q => L p q * (product n G K p q - product n G K q p))).
  - unfold dot. rewrite (rot_sum ni na nv _ (fun p q => L p q * (two * (F p q - F q p) + (product n G K p q - product n G K q p)))).
    + unfold pair_sum. rewrite <- Sigma_plus. apply Sigma_ext. intros p _. rewrite <- Sigma_plus. apply Sigma_ext. intros q _. destruct (rotatesb ni na nv p q); ring.
    + intros p q R. rewrite H by auto. rewrite <- (rot_matrix_pair ni na nv l p q R). reflexivity.
  - pose proof (anti_pair_sum ni na nv l (product n G K)) as A. cbv zeta in A. fold n L in A. rewrite A. f_equal.
    pose proof (anti_pair_sum ni na nv l F) as B. cbv zeta in B. fold n L in B.
    transitivity (two * Sigma n (fun p => Sigma n (fun q => L p q * F p q))).
    + rewrite B. unfold pair_sum. rewrite <- Sigma_scale. apply Sigma_ext. intros p _. rewrite <- Sigma_scale. apply Sigma_ext. intros q _. destruct (rotatesb ni na nv p q); ring.
    + rewrite <- Sigma_scale. apply Sigma_ext. intros p _. symmetry. apply Sigma_scale.
Qed.
(** sum over q of L(p,q) (G K)(p,q) *)
Lemma trace_form n L G K : (forall p q, K q p = - K p q) ->
  Sigma n (fun p => Sigma n (fun q => L p q * product n G K p q)) = - Sigma n (fun p => Sigma n (fun r => G p r * product n L K p r)).
Proof.
  intros HK. rewrite <- Sigma_opp. apply Sigma_ext. intros p _. unfold product.
  rewrite (Sigma_ext n _ (fun q => Sigma n (fun r => L p q * (G p r * K r q)))) by (intros; symmetry; apply Sigma_scale).
  rewrite Sigma_swap, <- Sigma_opp. apply Sigma_ext. intros r _. rewrite <- Sigma_scale, <- Sigma_opp. apply Sigma_ext. intros q _. rewrite (HK r q). ring.
Qed.
Lemma comm_anti n L K : (forall p q, L q p = - L p q) -> (forall p q, K q p = - K p q) -> forall p q, comm n L K q p = - comm n L K p q.
Proof.
  intros HL HK p q. unfold comm, product. rewrite <- !Sigma_minus, <- Sigma_opp. apply Sigma_ext. intros l _.
  rewrite (HL l q), (HK p l), (HK l q), (HL p l). ring.
Qed.
Lemma hessian_asymmetry no ni na nv T V D D2 g l k hl hk : no = (ni + na + nv)%nat ->
  symmetric2 no T -> eightfold no V -> symmetric2 na D -> fourfold na D2 ->
  let L := rot_matrix ni na nv l in let K := rot_matrix ni na nv k in let G := rot_matrix ni na nv g in
  let F := full_fock ni na T V D D2 in
  (forall p q, rotates ni na nv p q -> nth (rot_index ni na nv p q) g 0 = two * (F p q - F q p)) ->
  (forall x y, (x < na)%nat -> (y < na)%nat -> F (x + ni)%nat (y + ni)%nat = F (y + ni)%nat (x + ni)%nat) ->
  let hess k h := let K := rot_matrix ni na nv k in
    forall p q, rotates ni na nv p q -> nth (rot_index ni na nv p q) h 0 =
     (let F := full_fock ni na (one_index2 no K T) (one_index4 no K V) D D2 in
      two * (F p q - F q p) + (product no G K p q - product no G K q p)) in
  hess l hl -> hess k hk ->
  dot (rot_size ni na nv) l hk - dot (rot_size ni na nv) k hl = - (half * Sigma no (fun p => Sigma no (fun q => G p q * comm no L K p q))).
Proof.
  intros En HT HV HD HD2 L K G F Hg Ha hess Hl Hk.
  assert (AL : forall p q, L q p = - L p q) by (intros; apply rot_matrix_anti).
  assert (AK : forall p q, K q p = - K p q) by (intros; apply rot_matrix_anti).
  assert (Sp : forall l k h, hess k h -> let L := rot_matrix ni na nv l in let K := rot_matrix ni na nv k in
     dot (rot_size ni na nv) l h = total_energy ni na (one_index2 no L (one_index2 no K T)) (one_index4 no L (one_index4 no K V)) D D2 - Sigma no (fun p => Sigma no (fun q => G p q * product no L K p q))).
  { intros l' k' h' H' L' K'. unfold hess in H'. cbv zeta in H'. rewrite En in H'.
    pose proof (dot_split ni na nv l' k' g h' _ H') as DS. cbv zeta in DS. rewrite <- En in DS. rewrite DS. clear DS. fold L' K' G.
    rewrite (trace_form no L' G K') by (intros; apply rot_matrix_anti).
    rewrite (linear_response no ni na L' (one_index2 no K' T) (one_index4 no K' V) D D2) by (auto using one_index2_sym, one_index4_eight; lia).
    unfold Qcminus. f_equal. unfold full_fock. rewrite full_sum by lia. reflexivity. }
  rewrite (Sp l k hk Hk), (Sp k l hl Hl). fold L K.
  match goal with |- ?a - ?b - (?c - ?d) = _ => transitivity ((a - c) - (b - d)); [ring|] end.
  rewrite <- total_energy_minus.
  rewrite (total_energy_ext no ni na _ _ (one_index2 no (comm no L K) T) (one_index4 no (comm no L K) V)) by (try lia; intros; first [apply one_index2_comm|apply one_index4_comm]).
  rewrite (linear_response no ni na (comm no L K) T V D D2) by (auto; lia).
  rewrite <- (full_sum no ni na (comm no L K) (generalized_fock ni na T V D D2)) by lia.
  set (Y := Sigma no (fun p => Sigma no (fun q => G p q * comm no L K p q))).
  assert (EX : Sigma no (fun p => Sigma no (fun q => two * (comm no L K p q * (if (p <? ni + na)%nat then generalized_fock ni na T V D D2 p q else 0)))) = half * Y).
  { fold (full_fock ni na T V D D2). change (fun p q => if (p <? ni + na)%nat then generalized_fock ni na T V D D2 p q else 0) with (full_fock ni na T V D D2). fold F.
    assert (GF : forall p q, (p < no)%nat -> (q < no)%nat -> G p q = two * (F p q - F q p)).
    { intros p q Hp Hq. unfold G. destruct (rotatesb ni na nv p q) eqn:E1.
      - apply rotatesb_iff in E1. rewrite rot_matrix_pair by auto. apply Hg; auto.
      - destruct (rotatesb ni na nv q p) eqn:E2.
        + apply rotatesb_iff in E2. rewrite rot_matrix_anti, rot_matrix_pair by auto. rewrite Hg by auto. ring.
        + apply rotatesb_not in E1, E2. rewrite rot_matrix_zero by auto.
          assert (Z : F p q = F q p); [|rewrite Z; ring].
          unfold rotates in E1, E2. unfold F, full_fock.
          destruct (Nat.ltb_spec p (ni + na)) as [a|a], (Nat.ltb_spec q (ni + na)) as [b|b]; try lia.
          * destruct (Nat.lt_ge_cases p ni) as [c|c]; destruct (Nat.lt_ge_cases q ni) as [d|d]; try lia.
            -- apply (fock_inactive_sym no); auto; lia.
            -- specialize (Ha (p - ni)%nat (q - ni)%nat ltac:(lia) ltac:(lia)). replace (p - ni + ni)%nat with p in Ha by lia. replace (q - ni + ni)%nat with q in Ha by lia.
               unfold F, full_fock in Ha. destruct (Nat.ltb_spec p (ni + na)), (Nat.ltb_spec q (ni + na)); try lia. exact Ha.
          * reflexivity. }
    set (S1 := Sigma no (fun p => Sigma no (fun q => comm no L K p q * F p q))).
    transitivity (two * S1).
    { unfold S1. rewrite <- Sigma_scale. apply Sigma_ext. intros p _. rewrite <- Sigma_scale. reflexivity. }
    assert (EY : Y = two * (S1 + S1)).
    { unfold Y. transitivity (two * (S1 - Sigma no (fun q => Sigma no (fun p => comm no L K p q * F q p)))).
      - unfold S1. rewrite (Sigma_swap no no (fun q p => comm no L K p q * F q p)), <- Sigma_minus, <- Sigma_scale. apply Sigma_ext. intros p Hp.
        rewrite <- Sigma_minus, <- Sigma_scale. apply Sigma_ext. intros q Hq. rewrite GF by auto. ring.
      - f_equal. unfold Qcminus. f_equal. unfold S1. rewrite <- Sigma_opp. apply Sigma_ext. intros p _. rewrite <- Sigma_opp. apply Sigma_ext. intros q _. rewrite (comm_anti no L K AL AK p q). ring. }
    rewrite EY, two_half. unfold two. ring. }
  rewrite EX.
  replace (Sigma no (fun p => Sigma no (fun q => G p q * product no L K p q)) - Sigma no (fun p => Sigma no (fun q => G p q * product no K L p q))) with Y.
  - rewrite <- (half_half Y) at 2. ring.
  - unfold Y, comm. rewrite <- Sigma_minus. apply Sigma_ext. intros p _. rewrite <- Sigma_minus. apply Sigma_ext. intros. ring.
Qed.

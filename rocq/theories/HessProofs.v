(** One-index transformed integrals, the Hessian contraction, scalar products of packed
    rotations (C47, C55). *)
From Coq Require Import QArith Qcanon Bool Lia.
From Verif Require Import Base Sums Ham HamProofs Asci Mem MemProofs SparseProofs1 RdmIOProofs Dense DenseSpec DenseProofs FockMatProofs RotProofs LinRespProofs.
Local Open Scope nat_scope.

(** *** the code *)
Lemma one_index_ok no T LDT V LDV X LDX Tx LDTx Vx LDVx : LDX = LDT -> fits2 T LDT no no -> fits4 V LDV no -> fits2 X LDX no no ->
  fits2 Tx LDTx no no -> fits4 Vx LDVx no ->
  exists Tx' Vx', one_index_transformed_hamiltonian no T LDT V LDV X LDX Tx LDTx Vx LDVx = Ok (Tx', Vx') /\
    filled2 Tx Tx' LDTx no no (one_index2 no (at2 X LDX) (at2 T LDT)) /\ filled4 Vx Vx' LDVx no (one_index4 no (at2 X LDX) (at4 V LDV)).
Proof.
  intros E0 HT HV HX HTx HVx. unfold one_index_transformed_hamiltonian.
  match goal with |- context [foldM (loop2 no no) ?f Tx] =>
    destruct (fill_matrix no no LDTx (one_index2 no (at2 X LDX) (at2 T LDT)) f Tx) as (Tx' & E1 & F1) end; auto.
  { intros s p q Hp Hq. rewrite (sumM_Sigma0 no _ (fun o => at2 X LDX p o * at2 T LDT o q + at2 X LDX q o * at2 T LDT p o)%Qc); [reflexivity|].
    intros o Ho. rewrite (read2 X LDX no no) by auto. cbn [bind]. rewrite (read2 T LDT no no) by auto. cbn [bind].
    rewrite (read2 X LDX no no) by auto. cbn [bind]. rewrite (read2' T LDT no no p o) by (auto; lia). reflexivity. }
  rewrite E1. cbn [bind].
  match goal with |- context [foldM (loop4 no no no no) ?f Vx] =>
    destruct (fill_tensor no LDVx (one_index4 no (at2 X LDX) (at4 V LDV)) f Vx) as (Vx' & E2 & F2) end; auto.
  { intros s p q r u Hp Hq Hr Hu. rewrite (sumM_Sigma0 no _ (fun o => at2 X LDX p o * at4 V LDV o q r u + at2 X LDX q o * at4 V LDV p o r u + at2 X LDX r o * at4 V LDV p q o u + at2 X LDX u o * at4 V LDV p q r o)%Qc).
    - cbn [bind]. f_equal. lia.
    - intros o Ho. rewrite (read2 X LDX no no) by auto. cbn [bind]. rewrite (read4' V LDV no o q r u) by (auto; lia). cbn [bind].
      rewrite (read2 X LDX no no) by auto. cbn [bind]. rewrite (read4' V LDV no p o r u) by (auto; lia). cbn [bind].
      rewrite (read2 X LDX no no) by auto. cbn [bind]. rewrite (read4' V LDV no p q o u) by (auto; lia). cbn [bind].
      rewrite (read2 X LDX no no) by auto. cbn [bind]. rewrite (read4' V LDV no p q r o) by (auto; lia). reflexivity. }
  rewrite E2. cbn [bind]. eauto 6.
Qed.
Lemma fits2_len A n m : length A = n * m -> fits2 A n n m.
Proof. intros H. split; auto. intros i j Hi Hj. rewrite H. nia. Qed.
Lemma product_ext n A B A' B' i j : i < n -> j < n -> (forall a b, a < n -> b < n -> A a b = A' a b) -> (forall a b, a < n -> b < n -> B a b = B' a b) ->
  product n A B i j = product n A' B' i j.
Proof. intros Hi Hj H1 H2. unfold product. apply Sigma_ext. intros l Hl. rewrite H1, H2 by auto. reflexivity. Qed.
(** rows of the generalised Fock matrix, virtual rows being zero *)
Definition full_fock ni na T V D D2 r p : Qc := if r <? ni + na then generalized_fock ni na T V D D2 r p else 0%Qc.
Lemma Sigma_ext_in n f g : (forall i, i < n -> f i = g i) -> Sigma n f = Sigma n g. Proof. apply Sigma_ext. Qed.
Lemma inactive_fock_ext no ni T V T' V' p q : ni <= no -> p < no -> q < no -> (forall a b, a < no -> b < no -> T a b = T' a b) ->
  (forall a b c d, a < no -> b < no -> c < no -> d < no -> V a b c d = V' a b c d) -> inactive_fock ni T V p q = inactive_fock ni T' V' p q.
Proof.
  intros Hn Hp Hq HT HV. unfold inactive_fock. rewrite HT by auto. f_equal. apply Sigma_ext. intros i Hi. rewrite !HV by lia. reflexivity.
Qed.
Lemma full_fock_ext no ni na T V T' V' D D2 r p : ni + na <= no -> p < no -> (forall a b, a < no -> b < no -> T a b = T' a b) ->
  (forall a b c d, a < no -> b < no -> c < no -> d < no -> V a b c d = V' a b c d) -> full_fock ni na T V D D2 r p = full_fock ni na T' V' D D2 r p.
Proof.
  intros Hn Hp HT HV. unfold full_fock. destruct (Nat.ltb_spec r (ni + na)); auto. unfold generalized_fock. destruct (Nat.ltb_spec r ni).
  - rewrite (inactive_fock_ext no ni T V T' V') by (auto; lia). do 2 f_equal. unfold active_fock. apply Sigma_ext2. intros v w Hv Hw. rewrite !HV by lia. reflexivity.
  - f_equal; [apply Sigma_ext; intros y Hy; rewrite (inactive_fock_ext no ni T V T' V') by (auto; lia); reflexivity|].
    unfold q_matrix. f_equal. apply Sigma_ext2. intros w x Hw Hx. apply Sigma_ext. intros y Hy. rewrite !HV by lia. reflexivity.
Qed.
Lemma comp_mat2_zero no ni na T LDT V LDV D LDD1 D2 LDD2 : 0 < no -> 0 < LDD1 -> ni + na <= no ->
  fits2 T LDT no no -> fits4 V LDV no -> fits2 D LDD1 na na -> fits4 D2 LDD2 na ->
  exists F, generalized_fock_matrix_comp_mat2 no ni na T LDT V LDV D LDD1 D2 LDD2 (repeat 0%Qc (no * no)) no = Ok F /\ length F = no * no /\
    forall r p, r < no -> p < no -> at2 F no r p = full_fock ni na (at2 T LDT) (at4 V LDV) (at2 D LDD1) (at4 D2 LDD2) r p.
Proof.
  intros H0 HD0 Hn HT HV HD HD2. destruct (comp_mat2_ok no ni na T LDT V LDV D LDD1 D2 LDD2 (repeat 0%Qc (no * no)) no) as (F & E & L & R & U); auto.
  { apply (fits2_le _ _ no no); auto. apply fits2_repeat. }
  rewrite repeat_length in L. exists F. split; auto. split; auto. intros r p Hr Hp. unfold full_fock. destruct (Nat.ltb_spec r (ni + na)).
  - apply R; auto.
  - unfold at2. rewrite U; [apply nth_repeat|]. intros i j Hi Hj E'. apply pos2_inj in E'; lia.
Qed.
Lemma hessian_ok no ni na nv T V LDV D LDD1 D2 LDD2 OG k HK : no = ni + na + nv -> 0 < no -> 0 < LDD1 ->
  fits2 T no no no -> fits4 V LDV no -> fits2 D LDD1 na na -> fits4 D2 LDD2 na ->
  rot_size ni na nv <= length OG -> rot_size ni na nv <= length k -> rot_size ni na nv <= length HK ->
  let K := rot_matrix ni na nv k in let G := rot_matrix ni na nv OG in
  exists HK', orb_orb_hessian_contract no ni na nv T no V LDV D LDD1 D2 LDD2 OG k HK = Ok HK' /\ length HK' = length HK /\
    (forall x, rot_size ni na nv <= x -> nth x HK' 0%Qc = nth x HK 0%Qc) /\
    forall p q, rotates ni na nv p q -> nth (rot_index ni na nv p q) HK' 0%Qc =
      (let F := full_fock ni na (one_index2 no K (at2 T no)) (one_index4 no K (at4 V LDV)) (at2 D LDD1) (at4 D2 LDD2) in
       two * (F p q - F q p) + (product no G K p q - product no G K q p))%Qc.
Proof.
  intros En H0 HD0 HT HV HD HD2 HOG Hk HHK K G. unfold orb_orb_hessian_contract.
  destruct (unpack_zero ni na nv k Hk) as (Kf & E1 & L1 & R1). rewrite <- En in E1, L1, R1. rewrite E1. cbn [bind]. fold K in R1.
  destruct (one_index_ok no T no V LDV Kf no (repeat 0%Qc (no * no)) no (repeat 0%Qc (no * no * (no * no))) no) as (Tk & Vk & E2 & F2 & F3); auto.
  { apply fits2_len; auto. } { apply fits2_repeat. } { apply fits4_repeat. }
  rewrite E2. cbn [bind].
  destruct (comp_mat2_zero no ni na Tk no Vk no D LDD1 D2 LDD2) as (Fk & E3 & L3 & R3); auto; [lia| | |].
  { eapply fits2_filled; [exact F2|]. apply fits2_repeat. } { eapply fits4_filled; [exact F3|]. apply fits4_repeat. }
  rewrite E3. cbn [bind].
  destruct (pack_gradient_ok ni na nv Fk no HK HHK) as (HK1 & E4 & L4 & R4 & U4). { rewrite <- En. apply fits2_len; auto. }
  rewrite E4. cbn [bind].
  destruct (unpack_zero ni na nv OG HOG) as (Gf & E5 & L5 & R5). rewrite <- En in E5, L5, R5. rewrite E5. cbn [bind]. fold G in R5.
  destruct (gemm_ok false no no no Gf 0 no Kf 0 no Fk 0 no) as (GK & E6 & L6 & R6 & _); try lia.
  { cbn [plus]. intros. rewrite L5. nia. } { cbn [plus]. intros. rewrite L1. nia. } { cbn [plus]. intros. rewrite L3. nia. }
  rewrite E6. cbn [bind]. cbn [plus] in R6.
  assert (R6' : forall p q, p < no -> q < no -> at2 GK no p q = product no G K p q).
  { intros p q Hp Hq. unfold at2. rewrite R6 by auto. unfold product. apply Sigma_ext. intros l Hl. unfold opA. cbn [plus].
    rewrite <- (R5 p l), <- (R1 l q) by auto. reflexivity. }
  match goal with |- context [foldM (loop2 no no) ?f Gf] =>
    destruct (fill_matrix no no no (fun p q => product no G K p q - product no G K q p)%Qc f Gf) as (Z & E7 & F7) end.
  { apply fits2_len; auto. }
  { intros s p q Hp Hq. rewrite (read2 GK no no no) by (auto; apply fits2_len; lia). cbn [bind]. rewrite (read2 GK no no no) by (auto; apply fits2_len; lia). cbn [bind].
    rewrite !R6' by auto. reflexivity. }
  rewrite E7. cbn [bind].
  set (sz := nv * (na + ni) + na * ni). assert (Esz : sz = rot_size ni na nv) by (unfold sz, rot_size; lia).
  destruct (pack_rotation_ok ni na nv Z no (repeat 0%Qc sz)) as (tmp & E8 & L8 & R8 & _). { rewrite repeat_length. lia. }
  { rewrite <- En. apply fits2_len. destruct F7 as (-> & _). auto. }
  rewrite E8. cbn [bind]. rewrite repeat_length in L8.
  destruct (foldM_seq' (fun H i => do h <- at_ H i; do t <- at_ tmp i; put H i (h + t)%Qc)
     (fun k H => length H = length HK1 /\ forall x, nth x H 0%Qc = if x <? k then (nth x HK1 0 + nth x tmp 0)%Qc else nth x HK1 0%Qc) sz HK1) as (HK2 & E9 & L9 & R9).
  { split; auto. }
  { intros i s Hi (Ls & Rs). rewrite (at_ok _ _ 0%Qc) by lia. cbn [bind]. rewrite (at_ok _ _ 0%Qc) by lia. cbn [bind].
    rewrite put_ok by lia. eexists. split; [reflexivity|]. split; [rewrite upd_length; auto|]. intros x. rewrite upd_nth by lia.
    destruct (Nat.eqb_spec x i) as [->|Ne].
    - rewrite Rs, Nat.ltb_irrefl. destruct (Nat.ltb_spec i (S i)); [reflexivity|lia].
    - rewrite Rs. destruct (Nat.ltb_spec x i), (Nat.ltb_spec x (S i)); auto; lia. }
  rewrite E9. exists HK2. split; auto. split; [lia|]. split.
  - intros x Hx. rewrite R9. destruct (Nat.ltb_spec x sz); [lia|]. apply U4; auto.
  - intros p q R. pose proof (rotates_bound _ _ _ _ _ R) as (Bp & Bq & _). rewrite <- En in Bp, Bq. pose proof (rot_index_bound _ _ _ _ _ R). rewrite R9.
    destruct (Nat.ltb_spec (rot_index ni na nv p q) sz); [|lia]. rewrite R4, R8 by auto. cbv zeta.
    rewrite (filled2_at _ _ _ _ _ _ _ _ F7) by auto. rewrite !R3 by auto.
    assert (X : forall a b, b < no -> full_fock ni na (at2 Tk no) (at4 Vk no) (at2 D LDD1) (at4 D2 LDD2) a b =
              full_fock ni na (one_index2 no K (at2 T no)) (one_index4 no K (at4 V LDV)) (at2 D LDD1) (at4 D2 LDD2) a b).
    { intros a' b' Hb'. apply (full_fock_ext no); auto; [lia| |].
      * intros a b Ha Hb. rewrite (filled2_at _ _ _ _ _ _ _ _ F2) by auto. unfold one_index2. apply Sigma_ext. intros o Ho. rewrite !R1 by auto. reflexivity.
      * intros a b c d Ha Hb Hc Hd. rewrite (filled4_at _ _ _ _ _ _ _ _ _ F3) by auto. unfold one_index4. apply Sigma_ext. intros o Ho. rewrite !R1 by auto. reflexivity. }
    rewrite !X by auto. reflexivity.
Qed.

(** *** scalar products of packed vectors *)
Lemma Sigma_mul n m f : Sigma (n * m) f = Sigma m (fun i => Sigma n (fun a => f (a + i * n)%nat)).
Proof.
  induction m as [|m IH]; [rewrite Nat.mul_0_r; reflexivity|].
  rewrite Nat.mul_succ_r, Sigma_split, IH. replace (S m) with (m + 1) by lia. rewrite (Sigma_split m 1). f_equal.
  unfold Sigma at 2. cbn [seq sum]. rewrite Qcplus_0_r. apply Sigma_ext. intros a _. f_equal. lia.
Qed.
Definition pair_sum (ni na nv : nat) (f : nat -> nat -> Qc) : Qc :=
  Sigma (ni + na + nv) (fun p => Sigma (ni + na + nv) (fun q => if rotatesb ni na nv p q then f p q else 0%Qc)).
Lemma rot_sum ni na nv (g : nat -> Qc) f : (forall p q, rotates ni na nv p q -> g (rot_index ni na nv p q) = f p q) ->
  Sigma (rot_size ni na nv) g = pair_sum ni na nv f.
Proof.
  intros H. unfold rot_size, pair_sum. rewrite !Sigma_split, !Sigma_mul.
  assert (Z : forall n m (b : nat -> nat -> bool) h, (forall i j, i < n -> j < m -> b i j = false) -> Sigma n (fun i => Sigma m (fun j => if b i j then h i j else 0%Qc)) = 0%Qc).
  { intros n m b h Hb. rewrite (Sigma_ext n _ (fun _ => 0%Qc)); [apply Sigma_0|]. intros i Hi. rewrite (Sigma_ext m _ (fun _ => 0%Qc)); [apply Sigma_0|].
    intros j Hj. rewrite Hb by auto. reflexivity. }
  assert (O : forall n m (b : nat -> nat -> bool) h, (forall i j, i < n -> j < m -> b i j = true) -> Sigma n (fun i => Sigma m (fun j => if b i j then h i j else 0%Qc)) = Sigma m (fun j => Sigma n (fun i => h i j))).
  { intros n m b h Hb. rewrite Sigma_swap. apply Sigma_ext2. intros j i Hj Hi. rewrite Hb by auto. reflexivity. }
  assert (Sp : forall n h, Sigma n (fun p => Sigma (ni + na + nv) (fun q => h p q)) = (Sigma n (fun p => Sigma ni (fun q => h p q)) + Sigma n (fun p => Sigma na (fun q => h p (q + ni)%nat)) + Sigma n (fun p => Sigma nv (fun q => h p (q + (ni + na))%nat)))%Qc).
  { intros n h. rewrite <- !Sigma_plus. apply Sigma_ext. intros p _. rewrite !Sigma_split. reflexivity. }
  rewrite !Sp.
  assert (F : forall p q, ~ rotates ni na nv p q -> rotatesb ni na nv p q = false) by (intros; apply rotatesb_not; auto).
  assert (Tr : forall p q, rotates ni na nv p q -> rotatesb ni na nv p q = true) by (intros; apply rotatesb_iff; auto).
  rewrite (Z ni ni (fun p q => rotatesb ni na nv p q)) by (intros; apply F; unfold rotates; lia).
  rewrite (Z ni na (fun p q => rotatesb ni na nv p (q + ni)) (fun p q => f p (q + ni))) by (intros; apply F; unfold rotates; lia).
  rewrite (Z ni nv (fun p q => rotatesb ni na nv p (q + (ni + na))) (fun p q => f p (q + (ni + na)))) by (intros; apply F; unfold rotates; lia).
  rewrite (O na ni (fun p q => rotatesb ni na nv (p + ni) q) (fun p q => f (p + ni) q)) by (intros; apply Tr; unfold rotates; lia).
  rewrite (Z na na (fun p q => rotatesb ni na nv (p + ni) (q + ni)) (fun p q => f (p + ni) (q + ni))) by (intros; apply F; unfold rotates; lia).
  rewrite (Z na nv (fun p q => rotatesb ni na nv (p + ni) (q + (ni + na))) (fun p q => f (p + ni) (q + (ni + na)))) by (intros; apply F; unfold rotates; lia).
  rewrite (O nv ni (fun p q => rotatesb ni na nv (p + (ni + na)) q) (fun p q => f (p + (ni + na)) q)) by (intros; apply Tr; unfold rotates; lia).
  rewrite (O nv na (fun p q => rotatesb ni na nv (p + (ni + na)) (q + ni)) (fun p q => f (p + (ni + na)) (q + ni))) by (intros; apply Tr; unfold rotates; lia).
  rewrite (Z nv nv (fun p q => rotatesb ni na nv (p + (ni + na)) (q + (ni + na))) (fun p q => f (p + (ni + na)) (q + (ni + na)))) by (intros; apply F; unfold rotates; lia).
  rewrite (Sigma_ext2 ni nv (fun i a => g (a + i * nv)) (fun j i => f (i + (ni + na)) j)).
  2:{ intros i a Hi Ha. rewrite <- H by (unfold rotates; lia). f_equal. rewrite Nat.add_assoc. rewrite rot_index_vi; auto. }
  rewrite (Sigma_ext2 na nv (fun i a => g (a + i * nv + nv * ni)) (fun j i => f (i + (ni + na)) (j + ni))).
  2:{ intros i a Hi Ha. rewrite <- H by (unfold rotates; lia). f_equal. rewrite Nat.add_assoc. rewrite rot_index_va. lia. }
  rewrite (Sigma_ext2 ni na (fun i a => g (a + i * na + (nv * ni + nv * na))) (fun j i => f (i + ni) j)).
  2:{ intros i a Hi Ha. rewrite <- H by (unfold rotates; lia). f_equal. rewrite rot_index_ai by auto. lia. }
  ring.
Qed.
(** a sum over all pairs, when the first factor is antisymmetric and vanishes within the blocks *)
Lemma anti_pair_sum ni na nv k f : let n := ni + na + nv in
  Sigma n (fun p => Sigma n (fun q => rot_matrix ni na nv k p q * f p q))%Qc =
  pair_sum ni na nv (fun p q => rot_matrix ni na nv k p q * (f p q - f q p))%Qc.
Proof.
  intros n. unfold pair_sum. fold n.
  set (A := fun p q => if rotatesb ni na nv p q then (rot_matrix ni na nv k p q * f p q)%Qc else 0%Qc).
  set (B := fun p q => if rotatesb ni na nv p q then (rot_matrix ni na nv k p q * f q p)%Qc else 0%Qc).
  transitivity (Sigma n (fun p => Sigma n (fun q => A p q)) - Sigma n (fun p => Sigma n (fun q => B q p)))%Qc.
  - rewrite <- Sigma_minus. apply Sigma_ext. intros p _. rewrite <- Sigma_minus. apply Sigma_ext. intros q _. unfold A, B.
    destruct (rotatesb ni na nv p q) eqn:E1, (rotatesb ni na nv q p) eqn:E2.
    + apply rotatesb_iff in E1, E2. apply rotates_asym in E1. contradiction.
    + ring.
    + rewrite (rot_matrix_anti ni na nv k q p). ring.
    + apply rotatesb_not in E1, E2. rewrite rot_matrix_zero by auto. ring.
  - rewrite (Sigma_swap n n (fun p q => B q p)), <- Sigma_minus. apply Sigma_ext. intros p _. rewrite <- Sigma_minus. apply Sigma_ext. intros q _. unfold A, B.
    destruct (rotatesb ni na nv p q); ring.
Qed.
Lemma dot_gradient ni na nv k g F : let n := ni + na + nv in
  (forall p q, rotates ni na nv p q -> nth (rot_index ni na nv p q) g 0%Qc = (two * (F p q - F q p))%Qc) ->
  dot (rot_size ni na nv) k g = Sigma n (fun p => Sigma n (fun q => two * (rot_matrix ni na nv k p q * F p q)))%Qc.
Proof.
  intros n H. transitivity (two * Sigma n (fun p => Sigma n (fun q => rot_matrix ni na nv k p q * F p q)))%Qc.
  - pose proof (anti_pair_sum ni na nv k F) as AP. cbv zeta in AP. fold n in AP. rewrite AP. unfold dot.
    rewrite (rot_sum ni na nv _ (fun p q => two * (rot_matrix ni na nv k p q * (F p q - F q p))))%Qc.
    + unfold pair_sum. rewrite <- Sigma_scale. apply Sigma_ext. intros p _. rewrite <- Sigma_scale. apply Sigma_ext. intros q _. destruct (rotatesb ni na nv p q); ring.
    + intros p q R. rewrite H, rot_matrix_pair by auto. ring.
  - rewrite <- Sigma_scale. apply Sigma_ext. intros p _. symmetry. apply Sigma_scale.
Qed.
(** the commutator part of the Hessian does not contribute to the quadratic form *)
Lemma commutator_zero ni na nv k og : let n := ni + na + nv in let K := rot_matrix ni na nv k in let G := rot_matrix ni na nv og in
  pair_sum ni na nv (fun p q => K p q * (product n G K p q - product n G K q p))%Qc = 0%Qc.
Proof.
  intros n K G.
  pose proof (anti_pair_sum ni na nv k (product n G K)) as AP. cbv zeta in AP. fold n K in AP. rewrite <- AP. unfold product.
  rewrite (Sigma_ext2 n n _ (fun p q => Sigma n (fun l => G p l * (K l q * K p q)))%Qc).
  2:{ intros p q _ _. rewrite <- Sigma_scale. apply Sigma_ext. intros l _. ring. }
  (* sum over q first: symmetric in p, l *)
  rewrite (Sigma_ext n _ (fun p => Sigma n (fun l => G p l * Sigma n (fun q => K l q * K p q))))%Qc.
  2:{ intros p _. rewrite Sigma_swap. apply Sigma_ext. intros l _. apply Sigma_scale. }
  set (S := Sigma n _). assert (E : S = (- S)%Qc).
  { unfold S at 1. rewrite Sigma_swap. unfold S. rewrite <- Sigma_opp. apply Sigma_ext. intros l _. rewrite <- Sigma_opp. apply Sigma_ext. intros p _.
    unfold G. rewrite (rot_matrix_anti ni na nv og l p). rewrite (Sigma_ext n (fun q => K l q * K p q)%Qc (fun q => K p q * K l q)%Qc) by (intros; ring). ring. }
  assert (E2 : (S + S)%Qc = 0%Qc). { rewrite E at 1. ring. }
  rewrite <- (half_half S). rewrite <- Qcmult_plus_distr_r, E2. ring.
Qed.

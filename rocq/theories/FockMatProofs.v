(** Fock matrices and the energy from the generalised Fock matrix (C46). *)
From Coq Require Import QArith Qcanon Bool Lia.
From Verif Require Import Base Sums Ham HamProofs Asci Mem MemProofs SparseProofs1 RdmIOProofs Dense DenseSpec DenseProofs.
Local Open Scope nat_scope.

Lemma twice_two x : twice x = (two * x)%Qc. Proof. unfold twice, two. ring. Qed.
Lemma half_half_ : half_ = half. Proof. reflexivity. Qed.
Lemma two_half x : (half * (two * x))%Qc = x.
Proof. unfold two. replace (half * ((1 + 1) * x))%Qc with (half * x + half * x)%Qc by ring. apply half_half. Qed.
Lemma fits2_pos A LD n m i j : fits2 A LD n m -> i < n -> j < m -> i + j * LD < length A. Proof. intros [_ H]. auto. Qed.
Lemma fits2_le A LD n m n' m' : fits2 A LD n m -> n' <= n -> m' <= m -> fits2 A LD n' m'.
Proof. intros [H H']. split; [lia|]. intros i j Hi Hj. apply H'; lia. Qed.
Lemma fits4_le A LD n n' : fits4 A LD n -> n' <= n -> fits4 A LD n'.
Proof. intros [H H']. split; [lia|]. intros i j k l Hi Hj Hk Hl. apply H'; lia. Qed.
Lemma fits2_filled A A' LD n m f LD' n' m' : filled2 A A' LD n m f -> fits2 A LD' n' m' -> fits2 A' LD' n' m'.
Proof. intros (L & _) [H H']. split; auto. intros. rewrite L. auto. Qed.
Lemma fits4_filled A A' LD n f LD' n' : filled4 A A' LD n f -> fits4 A LD' n' -> fits4 A' LD' n'.
Proof. intros (L & _) [H H']. split; auto. intros. rewrite L. auto. Qed.
Lemma read2 A LD n m i j : fits2 A LD n m -> i < n -> j < m -> at_ A (i + j * LD) = Ok (at2 A LD i j).
Proof. intros H Hi Hj. rewrite (at_ok _ _ 0%Qc) by (eapply fits2_pos; eauto). reflexivity. Qed.
Lemma read4 A LD n i j k l : fits4 A LD n -> i < n -> j < n -> k < n -> l < n ->
  at_ A (i + j * LD + k * (LD * LD) + l * (LD * LD * LD)) = Ok (at4 A LD i j k l).
Proof.
  intros [_ H] Hi Hj Hk Hl. rewrite (at_ok _ _ 0%Qc).
  - unfold at4. do 2 f_equal. lia.
  - specialize (H i j k l Hi Hj Hk Hl). lia.
Qed.
Lemma read4' A LD n i j k l x : fits4 A LD n -> i < n -> j < n -> k < n -> l < n -> x = i + j * LD + k * (LD * LD) + l * (LD * LD * LD) ->
  at_ A x = Ok (at4 A LD i j k l).
Proof. intros. subst. eapply read4; eauto. Qed.
Lemma read2' A LD n m i j x : fits2 A LD n m -> i < n -> j < m -> x = i + j * LD -> at_ A x = Ok (at2 A LD i j).
Proof. intros. subst. eapply read2; eauto. Qed.
Lemma fits2_repeat n m x : fits2 (repeat x (n * m)) n n m.
Proof. split; auto. intros i j Hi Hj. rewrite repeat_length. nia. Qed.
Lemma fits2_repeat' n m x : fits2 (repeat x (m * n)) n n m.
Proof. rewrite Nat.mul_comm. apply fits2_repeat. Qed.
Lemma fits4_repeat n x : fits4 (repeat x (n * n * (n * n))) n n.
Proof.
  split; auto. intros i j k l Hi Hj Hk Hl. rewrite repeat_length.
  assert (i + j * n < n * n) by nia. assert (k + l * n < n * n) by nia.
  replace (i + j * n + k * n * n + l * n * n * n) with (i + j * n + (k + l * n) * (n * n)) by lia. nia.
Qed.

Lemma fill_matrix n m LD h (f : list Qc -> nat * nat -> res (list Qc)) a : fits2 a LD n m ->
  (forall s i j, i < n -> j < m -> f s (i, j) = put s (i + j * LD) (h i j)) ->
  exists a', foldM (loop2 n m) f a = Ok a' /\ filled2 a a' LD n m h.
Proof.
  intros [H H'] F. destruct (fill2 n m (fun i j => i + j * LD) h f a) as (a' & E & L & R & U); auto.
  - intros i j i' j' Hi Hj Hi' Hj' E. apply (pos2_inj LD); lia.
  - exists a'. split; auto. split; auto.
Qed.
Lemma fill_tensor n LD h (f : list Qc -> nat * nat * (nat * nat) -> res (list Qc)) a : fits4 a LD n ->
  (forall s i j k l, i < n -> j < n -> k < n -> l < n ->
     f s ((i, j), (k, l)) = put s (i + j * LD + k * (LD * LD) + l * (LD * LD * LD)) (h i j k l)) ->
  exists a', foldM (loop4 n n n n) f a = Ok a' /\ filled4 a a' LD n h.
Proof.
  intros [H H'] F.
  destruct (fill4 n n n n (fun i j k l => i + j * LD + k * LD * LD + l * LD * LD * LD) h f a) as (a' & E & L & R & U); auto.
  - intros i j k l i' j' k' l' Hi Hj Hk Hl Hi' Hj' Hk' Hl' E. apply (pos4_inj' LD); auto; lia.
  - intros. rewrite F by auto. f_equal. lia.
  - exists a'. split; auto. split; auto.
Qed.
Lemma filled2_ext A A' LD n m f g : (forall i j, i < n -> j < m -> f i j = g i j) -> filled2 A A' LD n m f -> filled2 A A' LD n m g.
Proof. intros H (L & R & U). split; auto. split; auto. intros. rewrite <- H by auto. auto. Qed.
Lemma filled4_ext A A' LD n f g : (forall i j k l, i < n -> j < n -> k < n -> l < n -> f i j k l = g i j k l) -> filled4 A A' LD n f -> filled4 A A' LD n g.
Proof. intros H (L & R & U). split; auto. split; auto. intros. rewrite <- H by auto. auto. Qed.
Lemma filled2_at A A' LD n m f i j : filled2 A A' LD n m f -> i < n -> j < m -> at2 A' LD i j = f i j.
Proof. intros (_ & R & _). auto. Qed.
Lemma filled4_at A A' LD n f i j k l : filled4 A A' LD n f -> i < n -> j < n -> k < n -> l < n -> at4 A' LD i j k l = f i j k l.
Proof. intros (_ & R & _). auto. Qed.

(** ** the matrices *)
Lemma inactive_energy_ok ni T LDT Fi LDF : fits2 T LDT ni ni -> fits2 Fi LDF ni ni ->
  inactive_energy ni T LDT Fi LDF = Ok (Sigma ni (fun i => at2 T LDT i i + at2 Fi LDF i i))%Qc.
Proof.
  intros HT HF. unfold inactive_energy. apply sumM_Sigma0. intros i Hi.
  rewrite (read2' T LDT ni ni i i) by (auto; lia). cbn [bind]. rewrite (read2' Fi LDF ni ni i i) by (auto; lia). reflexivity.
Qed.
Lemma inactive_fock_ok no ni T LDT V LDV Fi LDF : ni <= no -> fits2 T LDT no no -> fits4 V LDV no -> fits2 Fi LDF no no ->
  exists Fi', inactive_fock_matrix no ni T LDT V LDV Fi LDF = Ok Fi' /\
    filled2 Fi Fi' LDF no no (inactive_fock ni (at2 T LDT) (at4 V LDV)).
Proof.
  intros Hn HT HV HF. unfold inactive_fock_matrix. apply fill_matrix; auto. intros s p q Hp Hq.
  rewrite (sumM_Sigma0 ni _ (fun i => two * at4 V LDV p q i i - at4 V LDV p i i q)%Qc).
  - cbn [bind]. rewrite (read2 T LDT no no) by auto. reflexivity.
  - intros i Hi. rewrite (read4' V LDV no p q i i) by (auto; lia). cbn [bind].
    rewrite (read4' V LDV no p i i q) by (auto; lia). cbn [bind]. rewrite twice_two. reflexivity.
Qed.
Lemma active_sub1_ok na ni A LDA S LDS : fits2 A LDA (ni + na) (ni + na) -> fits2 S LDS na na ->
  exists S', active_submatrix_1body na ni A LDA S LDS = Ok S' /\ filled2 S S' LDS na na (shift2 ni (at2 A LDA)).
Proof.
  intros HA HS. unfold active_submatrix_1body. apply fill_matrix; auto. intros s x y Hx Hy. cbv zeta.
  rewrite (read2 A LDA (ni + na) (ni + na)) by (auto; lia). reflexivity.
Qed.
Lemma active_sub2_ok na ni A LDA S LDS : fits4 A LDA (ni + na) -> fits4 S LDS na ->
  exists S', active_subtensor_2body na ni A LDA S LDS = Ok S' /\ filled4 S S' LDS na (shift4 ni (at4 A LDA)).
Proof.
  intros HA HS. unfold active_subtensor_2body. apply fill_tensor; auto. intros s x y z w Hx Hy Hz Hw. cbv zeta.
  rewrite (read4 A LDA (ni + na)) by (auto; lia). reflexivity.
Qed.
Lemma active_hamiltonian_ok no na ni T LDT V LDV Fi LDF TA LDTA VA LDVA : ni + na <= no ->
  fits2 T LDT no no -> fits4 V LDV no -> fits2 Fi LDF no no -> fits2 TA LDTA na na -> fits4 VA LDVA na ->
  exists Fi' TA' VA', active_hamiltonian no na ni T LDT V LDV Fi LDF TA LDTA VA LDVA = Ok (Fi', TA', VA') /\
    filled2 Fi Fi' LDF no no (inactive_fock ni (at2 T LDT) (at4 V LDV)) /\
    filled2 TA TA' LDTA na na (shift2 ni (inactive_fock ni (at2 T LDT) (at4 V LDV))) /\
    filled4 VA VA' LDVA na (shift4 ni (at4 V LDV)).
Proof.
  intros Hn HT HV HF HTA HVA. unfold active_hamiltonian.
  destruct (active_sub2_ok na ni V LDV VA LDVA) as (VA' & -> & F3); auto. { apply (fits4_le _ _ no); auto. } cbn [bind].
  destruct (inactive_fock_ok no ni T LDT V LDV Fi LDF) as (Fi' & -> & F1); auto; [lia|]. cbn [bind].
  destruct (active_sub1_ok na ni Fi' LDF TA LDTA) as (TA' & -> & F2); auto.
  { apply (fits2_le _ _ no no); try lia. eapply fits2_filled; eauto. } cbn [bind].
  exists Fi', TA', VA'. split; auto. split; auto. split; auto. eapply filled2_ext; [|exact F2].
  intros x y Hx Hy. unfold shift2. apply (filled2_at _ _ _ _ _ _ _ _ F1); lia.
Qed.
Lemma active_fock_ok no ni na V LDV D LDD Fa LDF : ni + na <= no -> fits4 V LDV no -> fits2 D LDD na na -> fits2 Fa LDF no no ->
  exists Fa', active_fock_matrix no ni na V LDV D LDD Fa LDF = Ok Fa' /\
    filled2 Fa Fa' LDF no no (active_fock ni na (at4 V LDV) (at2 D LDD)).
Proof.
  intros Hn HV HD HF. unfold active_fock_matrix. apply fill_matrix; auto. intros s p q Hp Hq.
  rewrite (sumM_loop2 na na _ (fun v w => at2 D LDD v w * (at4 V LDV p q (v + ni) (w + ni) - half * at4 V LDV p (w + ni) (v + ni) q))%Qc).
  - cbn [bind]. f_equal. unfold active_fock. ring.
  - intros v w Hv Hw. cbv zeta. rewrite (read2 D LDD na na) by auto. cbn [bind].
    rewrite (read4 V LDV no) by (auto; lia). cbn [bind]. rewrite (read4' V LDV no p (w + ni) (v + ni) q) by (auto; lia). reflexivity.
Qed.
Lemma aux_q_ok na no ni V LDV D2 LDD Q LDQ : ni + na <= no -> fits4 V LDV no -> fits4 D2 LDD na -> fits2 Q LDQ na no ->
  exists Q', aux_q_matrix na no ni V LDV D2 LDD Q LDQ = Ok Q' /\
    filled2 Q Q' LDQ na no (q_matrix ni na (at4 V LDV) (at4 D2 LDD)).
Proof.
  intros Hn HV HD HQ. unfold aux_q_matrix. apply fill_matrix; auto. intros s v p Hv Hp.
  rewrite (sumM_loop3 na na na _ (fun w x y => at4 D2 LDD v w x y * at4 V LDV p (w + ni) (x + ni) (y + ni))%Qc).
  - cbn [bind]. f_equal. rewrite twice_two. unfold q_matrix. ring.
  - intros w x y Hw Hx Hy. cbv zeta. rewrite (read4 D2 LDD na) by auto. cbn [bind]. rewrite (read4 V LDV no) by (auto; lia). reflexivity.
Qed.

(** ** the generalised Fock matrix *)
Definition gen_rows (ni na : nat) (Fi Fa D : nat -> nat -> Qc) (Q : nat -> nat -> Qc) (r p : nat) : Qc :=
  if r <? ni then (two * (Fi p r + Fa p r))%Qc else (Sigma na (fun y => Fi p (y + ni)%nat * D y (r - ni)%nat) + Q (r - ni)%nat p)%Qc.
Lemma generalized_ok no ni na Fi LDFi Fa LDFa D LDD Q LDQ F LDF : 0 < no -> 0 < LDD -> ni + na <= no ->
  fits2 Fi LDFi no no -> fits2 Fa LDFa no no -> fits2 D LDD na na -> fits2 Q LDQ na no -> fits2 F LDF (ni + na) no ->
  exists F', generalized_fock_matrix no ni na Fi LDFi Fa LDFa D LDD Q LDQ F LDF = Ok F' /\
    filled2 F F' LDF (ni + na) no (gen_rows ni na (at2 Fi LDFi) (at2 Fa LDFa) (at2 D LDD) (at2 Q LDQ)).
Proof.
  intros H0 HD0 Hn HFi HFa HD HQ HF. unfold generalized_fock_matrix.
  destruct (fill_matrix ni no LDF (fun i p => two * (at2 Fi LDFi p i + at2 Fa LDFa p i))%Qc
    (fun F ip => let '(i, p) := ip in do a <- at_ Fi (p + i * LDFi); do b <- at_ Fa (p + i * LDFa); put F (i + p * LDF) (twice (a + b))) F)
    as (F1 & E1 & L1 & R1 & U1).
  { apply (fits2_le _ _ (ni + na) no); auto; lia. }
  { intros s i p Hi Hp. rewrite (read2 Fi LDFi no no) by (auto; lia). cbn [bind]. rewrite (read2 Fa LDFa no no) by (auto; lia). cbn [bind].
    rewrite twice_two. reflexivity. }
  rewrite E1. cbn [bind]. clear E1.
  destruct HFi as [HFi1 HFi2]. destruct HD as [HD1 HD2].
  destruct (gemm_ok false no na na Fi (ni * LDFi) LDFi D 0 LDD (repeat 0%Qc (no * na)) 0 no) as (X & EX & LX & RX & _); try lia.
  { intros p y Hp Hy. specialize (HFi2 p (y + ni) Hp ltac:(lia)). lia. }
  { cbn [plus]. auto. }
  { cbn [plus]. intros i j Hi Hj. rewrite repeat_length. nia. }
  rewrite EX. cbn [bind]. clear EX. rewrite repeat_length in LX. cbn [plus] in RX.
  destruct HF as [HF1 HF2].
  match goal with |- context [foldM (loop2 na no) ?f F1] =>
    destruct (fill2 na no (fun v p => v + ni + p * LDF) (fun v p => Sigma na (fun y => at2 Fi LDFi p (y + ni) * at2 D LDD y v) + at2 Q LDQ v p)%Qc f F1)
    as (F2 & E2 & L2 & R2 & U2) end.
  { intros v p v' p' Hv Hp Hv' Hp' E. destruct (pos2_inj LDF (v + ni) p (v' + ni) p'); lia. }
  { intros v p Hv Hp. rewrite L1. apply HF2; lia. }
  { intros s v p Hv Hp. cbv zeta. rewrite (at_ok _ _ 0%Qc) by (rewrite LX; nia). cbn [bind]. rewrite (read2 Q LDQ na no) by auto. cbn [bind].
    rewrite RX by auto. f_equal. f_equal. apply Sigma_ext. intros y Hy. unfold opA, at2. f_equal. f_equal. lia. }
  rewrite E2. exists F2. split; auto. split; [lia|]. split.
  - intros r p Hr Hp. unfold gen_rows. destruct (Nat.ltb_spec r ni) as [Lt|Ge].
    + unfold at2 at 1. rewrite U2. { apply R1; auto. }
      intros v p' Hv Hp' E. destruct (pos2_inj LDF r p (v + ni) p'); lia.
    + replace r with (r - ni + ni) at 1 by lia. unfold at2 at 1. rewrite R2 by lia. reflexivity.
  - intros x Hx. rewrite U2. { apply U1. intros i p Hi Hp. apply Hx; auto; lia. } intros v p Hv Hp. apply Hx; auto; lia.
Qed.
Lemma gen_rows_ext ni na no Fi Fa D Q Fi' Fa' Q' r p : ni + na <= no -> r < ni + na -> p < no ->
  (forall a b, a < no -> b < no -> Fi a b = Fi' a b) -> (forall a b, a < no -> b < no -> Fa a b = Fa' a b) ->
  (forall a b, a < na -> b < no -> Q a b = Q' a b) -> gen_rows ni na Fi Fa D Q r p = gen_rows ni na Fi' Fa' D Q' r p.
Proof.
  intros Hn Hr Hp H1 H2 H3. unfold gen_rows. destruct (Nat.ltb_spec r ni).
  - rewrite H1, H2 by lia. reflexivity.
  - rewrite H3 by lia. f_equal. apply Sigma_ext. intros y Hy. rewrite H1 by lia. reflexivity.
Qed.
Lemma comp_mat1_ok no ni na Fi LDFi V LDV D LDD1 D2 LDD2 F LDF : 0 < no -> 0 < LDD1 -> ni + na <= no ->
  fits2 Fi LDFi no no -> fits4 V LDV no -> fits2 D LDD1 na na -> fits4 D2 LDD2 na -> fits2 F LDF (ni + na) no ->
  exists F', generalized_fock_matrix_comp_mat1 no ni na Fi LDFi V LDV D LDD1 D2 LDD2 F LDF = Ok F' /\
    filled2 F F' LDF (ni + na) no (gen_rows ni na (at2 Fi LDFi) (active_fock ni na (at4 V LDV) (at2 D LDD1)) (at2 D LDD1)
      (q_matrix ni na (at4 V LDV) (at4 D2 LDD2))).
Proof.
  intros H0 HD0 Hn HFi HV HD HD2 HF. unfold generalized_fock_matrix_comp_mat1.
  destruct (active_fock_ok no ni na V LDV D LDD1 (repeat 0%Qc (no * no)) no) as (Fa & -> & A1); auto. { apply fits2_repeat. } cbn [bind].
  destruct (aux_q_ok na no ni V LDV D2 LDD2 (repeat 0%Qc (na * no)) na) as (Q & -> & A2); auto. { apply fits2_repeat. } cbn [bind].
  destruct (generalized_ok no ni na Fi LDFi Fa no D LDD1 Q na F LDF) as (F' & -> & A3); auto.
  { eapply fits2_filled; [exact A1|]. apply fits2_repeat. } { eapply fits2_filled; [exact A2|]. apply fits2_repeat. }
  exists F'. split; auto. eapply filled2_ext; [|exact A3]. intros r p Hr Hp. apply (gen_rows_ext ni na no); auto.
  - intros a b Ha Hb. apply (filled2_at _ _ _ _ _ _ _ _ A1); auto.
  - intros a b Ha Hb. apply (filled2_at _ _ _ _ _ _ _ _ A2); auto.
Qed.
Lemma comp_mat2_ok no ni na T LDT V LDV D LDD1 D2 LDD2 F LDF : 0 < no -> 0 < LDD1 -> ni + na <= no ->
  fits2 T LDT no no -> fits4 V LDV no -> fits2 D LDD1 na na -> fits4 D2 LDD2 na -> fits2 F LDF (ni + na) no ->
  exists F', generalized_fock_matrix_comp_mat2 no ni na T LDT V LDV D LDD1 D2 LDD2 F LDF = Ok F' /\
    filled2 F F' LDF (ni + na) no (generalized_fock ni na (at2 T LDT) (at4 V LDV) (at2 D LDD1) (at4 D2 LDD2)).
Proof.
  intros H0 HD0 Hn HT HV HD HD2 HF. unfold generalized_fock_matrix_comp_mat2.
  destruct (inactive_fock_ok no ni T LDT V LDV (repeat 0%Qc (no * no)) no) as (Fi & -> & A1); auto; [lia|apply fits2_repeat|]. cbn [bind].
  destruct (comp_mat1_ok no ni na Fi no V LDV D LDD1 D2 LDD2 F LDF) as (F' & -> & A2); auto.
  { eapply fits2_filled; [exact A1|]. apply fits2_repeat. }
  exists F'. split; auto. eapply filled2_ext; [|exact A2]. intros r p Hr Hp.
  transitivity (gen_rows ni na (inactive_fock ni (at2 T LDT) (at4 V LDV)) (active_fock ni na (at4 V LDV) (at2 D LDD1)) (at2 D LDD1)
      (q_matrix ni na (at4 V LDV) (at4 D2 LDD2)) r p); [|reflexivity].
  apply (gen_rows_ext ni na no); auto. intros a b Ha Hb. apply (filled2_at _ _ _ _ _ _ _ _ A1); auto.
Qed.

(** ** the energy *)
Lemma energy_ok ni na T LDT D LDD F LDF : fits2 T LDT (ni + na) (ni + na) -> fits2 D LDD na na -> fits2 F LDF (ni + na) (ni + na) ->
  energy_from_generalized_fock ni na T LDT D LDD F LDF =
  Ok (half * (Sigma ni (fun i => two * at2 T LDT i i) + Sigma na (fun x => Sigma na (fun y => at2 D LDD x y * shift2 ni (at2 T LDT) x y)) +
              Sigma (na + ni) (fun p => at2 F LDF p p)))%Qc.
Proof.
  intros HT HD HF. unfold energy_from_generalized_fock.
  rewrite (sumM_Sigma0 ni _ (fun i => two * at2 T LDT i i)%Qc).
  2:{ intros i Hi. rewrite (read2' T LDT (ni + na) (ni + na) i i) by (auto; lia). cbn [bind]. rewrite twice_two. reflexivity. }
  cbn [bind]. rewrite (sumM_loop2 na na _ (fun x y => at2 D LDD x y * shift2 ni (at2 T LDT) x y)%Qc).
  2:{ intros x y Hx Hy. cbv zeta. rewrite (read2 D LDD na na) by auto. cbn [bind]. rewrite (read2 T LDT (ni + na) (ni + na)) by (auto; lia). reflexivity. }
  cbn [bind]. rewrite (sumM_Sigma (na + ni) _ (fun p => at2 F LDF p p)).
  2:{ intros p Hp. apply (read2' F LDF (ni + na) (ni + na)); auto; lia. }
  reflexivity.
Qed.
Lemma sum_shift n k f : sum (seq k n) f = Sigma n (fun i => f (i + k)).
Proof.
  revert k f. induction n as [|n IH]; intros k f; [reflexivity|]. unfold Sigma. cbn [seq sum]. rewrite (IH 1), (IH (S k)).
  f_equal. apply Sigma_ext. intros i _. f_equal. lia.
Qed.
Lemma Sigma_split n m f : Sigma (n + m) f = (Sigma n f + Sigma m (fun i => f (i + n)%nat))%Qc.
Proof. unfold Sigma at 1. rewrite seq_app, sum_app, (sum_shift m (0 + n)). reflexivity. Qed.
Lemma core_energy_fock ni T V : Sigma ni (fun i => T i i + inactive_fock ni T V i i)%Qc = core_energy ni T V.
Proof.
  unfold core_energy, inactive_fock. rewrite <- Sigma_plus. apply Sigma_ext. intros i _. unfold two at 2. ring.
Qed.
Definition fock_contraction_symmetric (na : nat) (D F : nat -> nat -> Qc) : Prop :=
  Sigma na (fun v => Sigma na (fun y => F v y * D y v))%Qc = Sigma na (fun v => Sigma na (fun y => D v y * F v y))%Qc.
Lemma energy_identity ni na no T V D D2 : ni + na <= no -> pair_symmetric no V ->
  fock_contraction_symmetric na D (shift2 ni (inactive_fock ni T V)) ->
  (half * (Sigma ni (fun i => two * T i i) + Sigma na (fun x => Sigma na (fun y => D x y * shift2 ni T x y)) +
           Sigma (na + ni) (fun p => generalized_fock ni na T V D D2 p p)))%Qc = total_energy ni na T V D D2.
Proof.
  intros Hn HV HS. rewrite Nat.add_comm, Sigma_split.
  rewrite (Sigma_ext ni (fun p => generalized_fock ni na T V D D2 p p) (fun i => two * (inactive_fock ni T V i i + active_fock ni na V D i i))%Qc).
  2:{ intros i Hi. unfold generalized_fock. destruct (Nat.ltb_spec i ni); [reflexivity|lia]. }
  rewrite (Sigma_ext na (fun i => generalized_fock ni na T V D D2 (i + ni) (i + ni))
    (fun v => Sigma na (fun y => shift2 ni (inactive_fock ni T V) v y * D y v) + two * Sigma na (fun w => Sigma na (fun x => Sigma na (fun y => D2 v w x y * shift4 ni V v w x y))))%Qc).
  2:{ intros i Hi. unfold generalized_fock. destruct (Nat.ltb_spec (i + ni) ni); [lia|]. replace (i + ni - ni) with i by lia. reflexivity. }
  rewrite Sigma_plus, !Sigma_scale, Sigma_plus, HS.
  (* the trace of the active Fock matrix over inactive orbitals *)
  assert (EFa : Sigma ni (fun i => active_fock ni na V D i i) =
                (half * Sigma na (fun v => Sigma na (fun w => D v w * Sigma ni (fun i => two * V (v + ni)%nat (w + ni)%nat i i - V (v + ni)%nat i i (w + ni)%nat))))%Qc).
  { unfold active_fock. rewrite Sigma_swap, <- Sigma_scale. apply Sigma_ext. intros v Hv. rewrite Sigma_swap, <- Sigma_scale. apply Sigma_ext. intros w Hw.
    rewrite Sigma_scale. rewrite (Sigma_ext ni _ (fun i => half * (two * V (v + ni)%nat (w + ni)%nat i i - V (v + ni)%nat i i (w + ni)%nat))%Qc).
    - rewrite Sigma_scale. ring.
    - intros i Hi. rewrite (HV i i (v + ni) (w + ni)) by lia. rewrite (HV i (w + ni) (v + ni) i) by lia.
      replace (half * (two * V (v + ni)%nat (w + ni)%nat i i - V (v + ni)%nat i i (w + ni)%nat))%Qc with
        (half * (two * V (v + ni)%nat (w + ni)%nat i i) - half * V (v + ni)%nat i i (w + ni)%nat)%Qc by ring. rewrite two_half. reflexivity. }
  rewrite EFa. unfold total_energy, valence_energy. rewrite <- core_energy_fock, Sigma_plus.
  assert (EF : Sigma na (fun v => Sigma na (fun y => D v y * shift2 ni (inactive_fock ni T V) v y))%Qc =
     (Sigma na (fun v => Sigma na (fun y => D v y * shift2 ni T v y)) +
      Sigma na (fun v => Sigma na (fun w => D v w * Sigma ni (fun i => two * V (v + ni)%nat (w + ni)%nat i i - V (v + ni)%nat i i (w + ni)%nat))))%Qc).
  { rewrite <- Sigma_plus. apply Sigma_ext. intros v Hv. rewrite <- Sigma_plus. apply Sigma_ext. intros w Hw. unfold shift2, inactive_fock. ring. }
  rewrite EF. set (a := Sigma ni (fun i => T i i)). set (b := Sigma ni (fun i => inactive_fock ni T V i i)).
  set (c := (Sigma na (fun v => Sigma na (fun y => D v y * shift2 ni T v y)))%Qc).
  set (d := (Sigma na (fun v => Sigma na (fun w => D v w * Sigma ni (fun i => two * V (v + ni)%nat (w + ni)%nat i i - V (v + ni)%nat i i (w + ni)%nat))))%Qc).
  set (e := (Sigma na (fun v => Sigma na (fun w => Sigma na (fun x => Sigma na (fun y => D2 v w x y * shift4 ni V v w x y)))))%Qc).
  transitivity (half * (two * a) + half * (two * b) + (half * c + half * c) + half * (two * (half * d)) + half * d + half * (two * e))%Qc; [ring|].
  rewrite !two_half, half_half. transitivity (a + b + c + (half * d + half * d) + e)%Qc; [ring|]. rewrite half_half. ring.
Qed.
Lemma contraction_sym_D na D F : symmetric2 na D -> fock_contraction_symmetric na D F.
Proof. intros H. unfold fock_contraction_symmetric. apply Sigma_ext. intros v Hv. apply Sigma_ext. intros y Hy. rewrite (H y v) by auto. ring. Qed.
Lemma contraction_sym_F na D F : symmetric2 na F -> fock_contraction_symmetric na D F.
Proof.
  intros H. unfold fock_contraction_symmetric. rewrite Sigma_swap. apply Sigma_ext. intros v Hv. apply Sigma_ext. intros y Hy. rewrite (H y v) by auto. ring.
Qed.
Lemma energy_generalized_ok no ni na T LDT V LDV D LDD1 D2 LDD2 F LDF : 0 < no -> 0 < LDD1 -> ni + na <= no ->
  fits2 T LDT no no -> fits4 V LDV no -> fits2 D LDD1 na na -> fits4 D2 LDD2 na -> fits2 F LDF (ni + na) no ->
  pair_symmetric no (at4 V LDV) -> symmetric2 na (at2 D LDD1) ->
  exists F', generalized_fock_matrix_comp_mat2 no ni na T LDT V LDV D LDD1 D2 LDD2 F LDF = Ok F' /\
    energy_from_generalized_fock ni na T LDT D LDD1 F' LDF = Ok (total_energy ni na (at2 T LDT) (at4 V LDV) (at2 D LDD1) (at4 D2 LDD2)).
Proof.
  intros H0 HD0 Hn HT HV HD HD2 HF SV SD. destruct (comp_mat2_ok no ni na T LDT V LDV D LDD1 D2 LDD2 F LDF) as (F' & E & A); auto.
  exists F'. split; auto. rewrite energy_ok.
  - rewrite <- (energy_identity ni na no) by (auto; apply contraction_sym_D; auto).
    rewrite (Sigma_ext (na + ni) (fun p => at2 F' LDF p p) (fun p => generalized_fock ni na (at2 T LDT) (at4 V LDV) (at2 D LDD1) (at4 D2 LDD2) p p)); auto.
    intros p Hp. apply (filled2_at _ _ _ _ _ _ _ _ A); lia.
  - apply (fits2_le _ _ no no); auto; lia.
  - auto.
  - apply (fits2_le _ _ (ni + na) no); try lia. eapply fits2_filled; eauto.
Qed.

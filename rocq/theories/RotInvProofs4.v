(** The Hamiltonian maps rotated determinants of the whole space to such determinants; hence
    residuals agree, too. *)
From Coq Require Import QArith Qcanon.
From Verif Require Import Base Bits BitsProofs SD Spec Sums FockSpec FockProofs SDProofs HamProofs3 AsciContrib DenseSpec Dense DenseProofs SlaterCondon Ham DiisSpec DavSpec McscfSpec McscfProofs FreezeProofs4 RotInvProofs RotInvProofs2 RotInvProofs3.
Local Open Scope nat_scope.

Lemma nth_tab (f : nat -> Qc) n i : i < n -> nth i (map f (seq 0 n)) 0%Qc = f i.
Proof. intros H. rewrite (nth_indep _ 0%Qc (f 0)) by (rewrite map_length, seq_length; exact H). rewrite map_nth, seq_nth by exact H. reflexivity. Qed.
Lemma size_unflip x q n : size_is x (S n) -> tb x q = true -> size_is (flipb x q) n.
Proof.
  intros H B. assert (K : size_is (flipb x q) (bs_count (flipb x q))) by (apply size_is_count; reflexivity).
  assert (F : tb (flipb x q) q = false) by (rewrite tb_flip_same, B; reflexivity).
  pose proof (size_flip _ q _ K F) as X. rewrite flip_flip in X. pose proof (size_is_fun _ _ _ H X) as E. injection E as E. rewrite E. exact K.
Qed.
Section ROT.
  Variables (W no : nat).
  Hypothesis Hno : no <= W / 2.
  Definition electrons (d : N) (a b : nat) : Prop := in_space W no d /\ size_is (alpha W d) a /\ size_is (beta W d) b.
  Lemma act_electrons (c s : bool) (p : nat) (d : N) (a b : nat) (sg : bool) d' : p < no -> electrons d (if s then a else if c then a else S a) (if s then if c then b else S b else b) -> act (op_of W c (s, p)) d = Some (sg, d') ->
    electrons d' (if s then a else if c then S a else a) (if s then if c then S b else b else b).
  Proof.
    intros Hp (Sp & A & B) E. rewrite act_of in E. destruct (Bool.eqb (tb d (pos W (s, p))) (negb c)) eqn:Q; [|discriminate E]. injection E as _ <-. apply Bool.eqb_prop in Q.
    assert (St : tb (str W s d) p = negb c) by (rewrite <- (tb_str W s d p) by (right; lia); exact Q).
    split; [apply (flip_space W no Hno d (s, p)); [exact Hp|exact Sp]|].
    unfold pos. cbn [fst snd]. pose proof (str_flip W s d p ltac:(lia)) as F1. pose proof (str_flip_other W s d p ltac:(lia)) as F2.
    destruct s; unfold str in *; cbn [negb] in *; rewrite F1, F2; split; auto; destruct c; cbn [negb] in St; try (apply size_flip; assumption); apply size_unflip; assumption.
  Qed.
  Lemma act_ann_electrons (s : bool) p d a b sg d' : p < no -> electrons d a b -> act (op_of W false (s, p)) d = Some (sg, d') -> exists a' b', electrons d' a' b' /\ a = (if s then a' else S a') /\ b = (if s then S b' else b').
  Proof.
    intros Hp El E. pose proof E as E0. rewrite act_of in E0. destruct (Bool.eqb (tb d (pos W (s, p))) (negb false)) eqn:Q; [|discriminate E0]. apply Bool.eqb_prop in Q. cbn [negb] in Q.
    destruct El as (Sp & A & B). assert (St : tb (str W s d) p = true) by (rewrite <- (tb_str W s d p) by (right; lia); exact Q).
    assert (Nz : forall x n q, size_is x n -> tb x q = true -> exists m, n = S m).
    { intros x n q Hx Hq. destruct n; [|eauto]. apply size_is_0 in Hx. subst x. rewrite tb_0 in Hq. discriminate Hq. }
    destruct s; cbn [str] in St.
    - destruct (Nz _ _ _ B St) as (m & ->). exists a, m. split; [|auto]. apply (act_electrons false true p d a m sg d' Hp); [split; auto|exact E].
    - destruct (Nz _ _ _ A St) as (m & ->). exists m, b. split; [|auto]. apply (act_electrons false false p d m b sg d' Hp); [split; auto|exact E].
  Qed.
  Lemma act_cre_electrons (s : bool) (p : nat) d (a b : nat) sg d' : p < no -> electrons d a b -> act (op_of W true (s, p)) d = Some (sg, d') -> electrons d' (if s then a else S a) (if s then S b else b).
  Proof. intros Hp El E. apply (act_electrons true s p d a b sg d' Hp); [destruct s; exact El|exact E]. Qed.
  Lemma apply1_electrons s p q d a b sg d' : p < no -> q < no -> electrons d a b -> apply (ops_of W (prod1 s p q)) d = Some (sg, d') -> electrons d' a b.
  Proof.
    intros Hp Hq El E. unfold prod1 in E. cbn [ops_of map fst snd apply] in E.
    destruct (act (op_of W false (s, q)) d) as [[s1 d1]|] eqn:E1; [|discriminate E]. destruct (act_ann_electrons s q d a b s1 d1 Hq El E1) as (a' & b' & El1 & -> & ->).
    destruct (act (op_of W true (s, p)) d1) as [[s2 d2]|] eqn:E2; [|discriminate E]. injection E as _ <-.
    pose proof (act_cre_electrons s p d1 a' b' s2 d2 Hp El1 E2). exact H.
  Qed.
  Lemma apply2_electrons s t p q r u d a b sg d' : p < no -> q < no -> r < no -> u < no -> electrons d a b -> apply (ops_of W (prod2 s t p q r u)) d = Some (sg, d') -> electrons d' a b.
  Proof.
    intros Hp Hq Hr Hu El E. unfold prod2 in E. cbn [ops_of map fst snd apply] in E.
    destruct (act (op_of W false (s, q)) d) as [[s1 d1]|] eqn:E1; [|discriminate E]. destruct (act_ann_electrons s q d a b s1 d1 Hq El E1) as (a1 & b1 & El1 & Ea & Eb).
    destruct (act (op_of W false (t, u)) d1) as [[s2 d2]|] eqn:E2; [|discriminate E]. destruct (act_ann_electrons t u d1 a1 b1 s2 d2 Hu El1 E2) as (a2 & b2 & El2 & Ea2 & Eb2).
    destruct (act (op_of W true (t, r)) d2) as [[s3 d3]|] eqn:E3; [|discriminate E]. pose proof (act_cre_electrons t r d2 a2 b2 s3 d3 Hr El2 E3) as El3. rewrite <- Ea2, <- Eb2 in El3.
    destruct (act (op_of W true (s, p)) d3) as [[s4 d4]|] eqn:E4; [|discriminate E]. injection E as _ <-.
    pose proof (act_cre_electrons s p d3 a1 b1 s4 d4 Hp El3 E4) as El4. rewrite <- Ea, <- Eb in El4. exact El4.
  Qed.
  Lemma hterms_electrons T V x d a b sg d' : In x (hterms no T V) -> electrons d a b -> apply (ops_of W (snd x)) d = Some (sg, d') -> electrons d' a b.
  Proof.
    unfold hterms. rewrite in_app_iff. intros [H|H] El E; rewrite in_flat_map in H; destruct H as (s1 & _ & H); rewrite in_flat_map in H.
    - destruct H as (p & Hp & H). rewrite in_map_iff in H. destruct H as (q & <- & Hq). apply in_seq in Hp, Hq. exact (apply1_electrons s1 p q d a b sg d' ltac:(lia) ltac:(lia) El E).
    - destruct H as (ta & _ & H). rewrite in_flat_map in H. destruct H as (p & Hp & H). rewrite in_flat_map in H. destruct H as (q & Hq & H). rewrite in_flat_map in H. destruct H as (r & Hr & H).
      rewrite in_map_iff in H. destruct H as (s & <- & Hs). apply in_seq in Hp, Hq, Hr, Hs. exact (apply2_electrons s1 ta p q r s d a b sg d' ltac:(lia) ltac:(lia) ltac:(lia) ltac:(lia) El E).
  Qed.

  Variables (U : nat -> nat -> Qc).
  Hypothesis HU : orthogonal no U.
  Variables (T T' : nat -> nat -> Qc) (V V' : nat -> nat -> nat -> nat -> Qc).
  Hypothesis HR : rotated no U T V T' V'.
  Local Notation rops := (rops W no U).
  Local Notation phi := (phi W no U).
  Local Notation ip := (ip W no).
  Variables (na nb : nat) (D : list N).
  Hypothesis HD : whole_space W no na nb D.
  Lemma D_el d : In d D <-> electrons d na nb. Proof. apply HD. Qed.
  (** H Phi_d = sum_b <b|H|d> Phi_b *)
  Lemma ham_phi d t : In d D -> hsum no T' V' (fun l => rops l (phi d) t) = sum D (fun b => ham W no T' V' b d * phi b t)%Qc.
  Proof.
    intros Hd. pose proof (proj1 (D_el d) Hd) as El. rewrite hsum_flat.
    transitivity (sum (hterms no T' V') (fun x => sum D (fun b => fst x * (braket b (ops_of W (snd x)) d * phi b t)))%Qc).
    - apply sum_ext. intros x Hx. rewrite sum_scale. f_equal.
      destruct (rops_phi W no U Hno HU (snd x) d (hterms_ok no T' V' x Hx) (proj1 El)) as [E _]. rewrite E. unfold braket.
      destruct (apply (ops_of W (snd x)) d) as [[sg d']|] eqn:A.
      + assert (Hd' : In d' D) by (apply D_el; exact (hterms_electrons T' V' x d na nb sg d' Hx El A)).
        rewrite (sum_single D d'); [rewrite N.eqb_refl; reflexivity|exact (proj1 HD)|exact Hd'|]. intros b _ Nb. rewrite (proj2 (N.eqb_neq d' b)) by congruence. ring.
      + symmetry. apply sum_zero. intros b _. ring.
    - rewrite sum_swap. apply sum_ext. intros b _. rewrite ham_hsum, hsum_flat, <- sum_scale_r. apply sum_ext. intros x _. ring.
  Qed.
  Variable Y : list Qc.
  Local Notation n := (length D).
  Local Notation wfv := (wfv W no U D).
  Lemma wfv_list (Z : nat -> Qc) t : sum D (fun b => sum (seq 0 n) (fun i => if (nth i D 0 =? b)%N then Z i else 0) * phi b t)%Qc = sum (seq 0 n) (fun i => Z i * phi (nth i D 0%N) t)%Qc.
  Proof.
    transitivity (sum D (fun b => sum (seq 0 n) (fun i => (if (nth i D 0 =? b)%N then Z i else 0) * phi b t))%Qc).
    - apply sum_ext. intros b _. symmetry. apply sum_scale_r.
    - rewrite sum_swap. apply sum_ext. intros i Hi. apply in_seq in Hi. rewrite (sum_single D (nth i D 0%N)).
      + rewrite N.eqb_refl. reflexivity.
      + exact (proj1 HD).
      + apply nth_In. lia.
      + intros b _ Nb. rewrite (proj2 (N.eqb_neq _ _)) by congruence. ring.
  Qed.
  (** H w has the coefficients H' Y *)
  Lemma ham_wfv t : hsum no T V (fun l => oops W l (wfv Y) t) = wfv (map (fun i => matvec n (ci_matrix W (mk_ints no T' V') 0%Qc D) Y i) (seq 0 n)) t.
  Proof.
    rewrite <- (same_hamiltonian W no U HU T T' V V' HR).
    transitivity (sum (seq 0 n) (fun j => nth j Y 0 * hsum no T' V' (fun l => rops l (phi (nth j D 0%N)) t))%Qc).
    - rewrite <- (hsum_sum no T' V' (seq 0 n) (fun j => nth j Y 0%Qc) (fun j l => rops l (phi (nth j D 0%N)) t)). apply hsum_ext. intros l _. unfold RotInvProofs3.wfv. apply (rops_sum W no U (seq 0 n) (fun j => nth j Y 0%Qc) (fun j => phi (nth j D 0%N))).
    - transitivity (sum D (fun b => sum (seq 0 n) (fun j => ham W no T' V' b (nth j D 0%N) * nth j Y 0) * phi b t)%Qc).
      + transitivity (sum (seq 0 n) (fun j => sum D (fun b => ham W no T' V' b (nth j D 0%N) * nth j Y 0 * phi b t))%Qc).
        * apply sum_ext. intros j Hj. apply in_seq in Hj. rewrite ham_phi by (apply nth_In; lia). rewrite <- sum_scale. apply sum_ext. intros b _. ring.
        * rewrite sum_swap. apply sum_ext. intros b _. apply sum_scale_r.
      + rewrite <- (Sigma_list D (fun b => sum (seq 0 n) (fun j => ham W no T' V' b (nth j D 0%N) * nth j Y 0) * phi b t)%Qc). unfold RotInvProofs3.wfv, Sigma. apply sum_ext. intros i Hi. apply in_seq in Hi. f_equal.
        rewrite (nth_indep _ 0%Qc (matvec n (ci_matrix W (mk_ints no T' V') 0%Qc D) Y 0)) by (rewrite map_length, seq_length; lia). rewrite map_nth, seq_nth by lia. unfold matvec, Sigma. cbn [Nat.add].
        apply sum_ext. intros j _. rewrite ci_zero. reflexivity.
  Qed.
  (** all together: norms, energies and residuals *)
  Lemma same_state_full : exists Z, length Z = n /\ dot n Z Z = dot n Y Y /\
    expectation n (ci_matrix W (mk_ints no T V) 0%Qc D) Z = expectation n (ci_matrix W (mk_ints no T' V') 0%Qc D) Y /\
    forall lam, residual2 n (ci_matrix W (mk_ints no T V) 0%Qc D) lam Z = residual2 n (ci_matrix W (mk_ints no T' V') 0%Qc D) lam Y.
  Proof.
    exists (map (wfv Y) D). assert (Nth : forall f i, i < n -> nth i (map f D) 0%Qc = f (nth i D 0%N)).
    { intros f i Hi. rewrite (nth_indep (map f D) 0%Qc (f 0%N)) by (rewrite map_length; exact Hi). apply map_nth. }
    split; [apply map_length|]. split.
    { rewrite <- (wfv_norm W no U Hno HU na nb D Y HD), <- (Sigma_list D (fun s => wfv Y s * wfv Y s)%Qc). apply Sigma_ext. intros i Hi. rewrite !(Nth (wfv Y) i Hi). reflexivity. }
    assert (Mv : forall i, i < n -> matvec n (ci_matrix W (mk_ints no T V) 0%Qc D) (map (wfv Y) D) i = hsum no T V (fun l => oops W l (wfv Y) (nth i D 0%N))).
    { intros i Hi. unfold matvec. transitivity (hsum no T V (fun l => sum D (fun s => wfv Y s * oops W l (e_ s) (nth i D 0%N)))%Qc).
      - rewrite (hsum_sum no T V D (wfv Y) (fun s l => oops W l (e_ s) (nth i D 0%N))).
        rewrite <- (Sigma_list D (fun s => wfv Y s * hsum no T V (fun l => oops W l (e_ s) (nth i D 0%N)))%Qc). apply Sigma_ext. intros j Hj. rewrite (Nth (wfv Y) j Hj), ci_zero. cbn [norb T_pq V_pqrs].
        rewrite Qcmult_comm. f_equal. rewrite ham_hsum. apply hsum_ext. intros l _. symmetry. apply oops_e.
      - apply hsum_ext. intros l _. rewrite <- (oops_sum W D (wfv Y) e_ l). apply oops_ext. intros s. symmetry. apply (wfv_e W no U Hno na nb D Y HD). }
    split.
    - unfold expectation. transitivity (sum D (fun t => wfv Y t * sum D (fun s => wfv Y s * ham W no T V t s))%Qc).
      + rewrite <- (Sigma_list D (fun t => wfv Y t * sum D (fun s => wfv Y s * ham W no T V t s))%Qc). apply Sigma_ext. intros i Hi. rewrite (Nth (wfv Y) i Hi). f_equal. unfold matvec.
        rewrite <- (Sigma_list D (fun s => wfv Y s * ham W no T V (nth i D 0%N) s)%Qc). apply Sigma_ext. intros j Hj. rewrite (Nth (wfv Y) j Hj), ci_zero. cbn [norb T_pq V_pqrs]. ring.
      + rewrite (wfv_energy W no U Hno HU T T' V V' HR na nb D Y HD). apply sum_ext. intros i _. f_equal. apply sum_ext. intros j _. rewrite ci_zero. cbn [norb T_pq V_pqrs]. ring.
    - intros lam. set (R := map (fun i => (matvec n (ci_matrix W (mk_ints no T' V') 0%Qc D) Y i - lam * nth i Y 0)%Qc) (seq 0 n)).
      assert (NR : forall i, i < n -> nth i R 0%Qc = (matvec n (ci_matrix W (mk_ints no T' V') 0%Qc D) Y i - lam * nth i Y 0)%Qc).
      { intros i Hi. unfold R. rewrite nth_tab by exact Hi. reflexivity. }
      unfold residual2, norm2. transitivity (dot n R R); [|apply Sigma_ext; intros i Hi; rewrite (NR i Hi); reflexivity].
      rewrite <- (wfv_norm W no U Hno HU na nb D R HD), <- (Sigma_list D (fun s => wfv R s * wfv R s)%Qc). apply Sigma_ext. intros i Hi.
      assert (E : (matvec n (ci_matrix W (mk_ints no T V) 0%Qc D) (map (wfv Y) D) i - lam * nth i (map (wfv Y) D) 0 = wfv R (nth i D 0%N))%Qc).
      { rewrite (Mv i Hi), ham_wfv, (Nth (wfv Y) i Hi). unfold RotInvProofs3.wfv. rewrite <- sum_scale, <- sum_minus. apply sum_ext. intros j Hj. apply in_seq in Hj. rewrite (NR j) by lia.
        rewrite (nth_indep _ 0%Qc (matvec n (ci_matrix W (mk_ints no T' V') 0%Qc D) Y 0)) by (rewrite map_length, seq_length; lia). rewrite map_nth, seq_nth by lia. cbn [Nat.add]. ring. }
      rewrite E. reflexivity.
  Qed.
End ROT.
(** the inverse transformation *)
Lemma rotated_back no U T V T' V' : rotated no U T V T' V' -> rotated no (fun i j => U j i) T' V' T V.
Proof.
  intros HR. assert (HU : orthogonal no U) by exact (proj1 HR). split; [apply rows_orthogonal, HU|]. split.
  - intros p q Hp Hq. symmetry. exact (back2 no U HU T T' V V' HR p q Hp Hq).
  - intros p q r s Hp Hq Hr Hs. symmetry. exact (back4 no U HU T T' V V' HR p q r s Hp Hq Hr Hs).
Qed.

(** The orbital step: preconditioned gradient, limitation, extrapolation, rotation. *)
From Coq Require Import QArith Qcanon Qcabs Bool Lqa.
From Verif Require Import Base SD Sums Ham Nondet Asci AsciSort Mem MemProofs Dense DenseSpec DenseProofs FockMatProofs RotProofs HessProofs LinRespProofs ExpandProofs
  Diis DiisSpec DiisProofs DiisProofs2 Collective QuickProofs Davidson DavProofs DavProofs2 DenseGlue Mcscf McscfSpec McscfProofs.
Local Open Scope nat_scope.

Lemma foldM_seq_outc {St} (f : St -> nat -> res St) (I : nat -> St -> Prop) F n : forall k s, I k s ->
  (forall i s, k <= i < k + n -> I i s -> outc (I (S i)) F (f s i)) -> outc (I (k + n)) F (foldM (seq k n) f s).
Proof.
  induction n as [|n IH]; intros k s H0 H; cbn [seq foldM]; [rewrite Nat.add_0_r; exact H0|].
  apply (outc_bind (I (S k))); [apply H; auto; lia|]. intros s' H'. replace (k + S n) with (S k + n) by lia. apply IH; auto. intros i t Hi. apply H. lia.
Qed.
Lemma foldM_seq_outc0 {St} (f : St -> nat -> res St) (I : nat -> St -> Prop) F n s : I 0 s ->
  (forall i s, i < n -> I i s -> outc (I (S i)) F (f s i)) -> outc (I n) F (foldM (seq 0 n) f s).
Proof. intros H0 H. apply (foldM_seq_outc f I F n 0); auto. intros i t Hi. apply H. lia. Qed.

(** ** precond_cg_orbital_step *)
Lemma precond_out no ni na nv Fi LDFi Fa LDFa Fk LDF D LDD G K (F : err -> Prop) : let n := ni + na + nv in
  fits2 Fi LDFi n n -> fits2 Fa LDFa n n -> fits2 D LDD na na -> fits2 Fk LDF n n -> rot_size ni na nv <= length G -> length K = rot_size ni na nv ->
  let dh := diagonal_hessian ni na (at2 Fi LDFi) (at2 Fa LDFa) (at2 Fk LDF) (at2 D LDD) in
  ((exists p q, rotates ni na nv p q /\ dh p q = 0%Qc) -> F NonFinite) ->
  outc (fun K' => length K' = rot_size ni na nv /\
     forall p q, rotates ni na nv p q -> dh p q <> 0%Qc /\ nth (rot_index ni na nv p q) K' 0%Qc = (- nth (rot_index ni na nv p q) G 0 / dh p q)%Qc) F
    (precond_cg_orbital_step no ni na nv Fi LDFi Fa LDFa Fk LDF D LDD G K).
Proof.
  intros n H1 H2 H3 H4 HG HK dh HF. unfold precond_cg_orbital_step. rewrite size_eq.
  destruct (diag_hessian_ok ni na nv Fi LDFi Fa LDFa D LDD Fk LDF (repeat 0%Qc (rot_size ni na nv))) as (DH & ED & LD & RD & _); auto.
  { rewrite repeat_length. lia. }
  rewrite repeat_length in LD. fold dh in RD. apply (outc_ok _ _ _ _ _ ED).
  eapply outc_weaken.
  - apply (foldM_seq_outc0 _ (fun i K' => length K' = rot_size ni na nv /\ forall x, x < i -> nth x DH 0%Qc <> 0%Qc /\ nth x K' 0%Qc = (- nth x G 0 / nth x DH 0)%Qc)).
    + split; auto. intros x Hx. lia.
    + intros i K' Hi [LK' HK']. rewrite (at_ok G i 0%Qc) by lia. cbn [bind]. rewrite (at_ok DH i 0%Qc) by lia. cbn [bind]. unfold div_.
      destruct (Qc_eq_dec (nth i DH 0%Qc) 0) as [Z|Z]; cbn [bind].
      * cbn [outc]. apply HF. destruct (rot_index_onto ni na nv i Hi) as (p & q & R & <-). exists p, q. split; auto. rewrite <- RD; auto.
      * rewrite put_ok by lia. cbn [outc]. split; [rewrite upd_length; auto|]. intros x Hx. rewrite upd_nth by lia.
        destruct (Nat.eqb_spec x i) as [->|Ne]; [split; auto|]. apply HK'. lia.
  - cbv beta. intros K' [LK' HK']. split; auto. intros p q R. rewrite <- RD by auto. apply HK'. apply rot_index_bound. exact R.
Qed.

(** ** limited_step *)
Lemma qabs_std x : Qcabs x = Qcabs.Qcabs x.
Proof.
  unfold Qcabs. destruct (qlt x 0) eqn:E; symmetry.
  - apply Qcabs.Qcabs_neg. apply qlt_true in E. apply Qclt_le_weak. exact E.
  - apply Qcabs.Qcabs_pos. apply qlt_false in E. exact E.
Qed.
Lemma qabs_nonneg x : (0 <= Qcabs x)%Qc.
Proof. rewrite qabs_std. apply Qcabs_nonneg. Qed.
Lemma qabs_mult x y : Qcabs (x * y) = (Qcabs x * Qcabs y)%Qc.
Proof. rewrite !qabs_std. apply Qcabs_Qcmult. Qed.
Lemma qabs_pos x : (0 <= x)%Qc -> Qcabs x = x.
Proof. rewrite qabs_std. apply Qcabs_pos. Qed.

Lemma max_abs_ok l : l <> [] -> exists m, max_abs l = Ok m /\ (0 <= m)%Qc /\ (exists x, x < length l /\ m = Qcabs (nth x l 0%Qc)) /\ forall x, x < length l -> (Qcabs (nth x l 0%Qc) <= m)%Qc.
Proof.
  destruct l as [|c r]; intros H; [congruence|]. unfold max_abs. exists (Qcabs (max_from (fun a b => qlt (Qcabs a) (Qcabs b)) c r)). split; [reflexivity|].
  destruct (max_from_spec (fun a b => qlt (Qcabs a) (Qcabs b))) with (l := r) (b := c) as (Hin & Hmax).
  { split.
    - intros x y Hxy. apply qlt_true in Hxy. apply qlt_false. apply Qclt_le_weak. exact Hxy.
    - intros x y z Hxy Hyz. apply qlt_false in Hxy, Hyz. apply qlt_false. eapply Qcle_trans; eauto. }
  split; [apply qabs_nonneg|]. split.
  - apply (In_nth _ _ 0%Qc) in Hin. destruct Hin as (x & Hx & E). exists x. split; auto. rewrite E. reflexivity.
  - intros x Hx. apply qlt_false. apply Hmax. apply nth_In. exact Hx.
Qed.

(** [K'] is [K], scaled down if an element exceeds [mx] *)
Definition limited (mx : Qc) (n : nat) (K K' : nat -> Qc) : Prop :=
  ((forall x, x < n -> (Qcabs (K x) <= mx)%Qc) /\ forall x, x < n -> K' x = K x) \/
  exists m, m < n /\ (mx < Qcabs (K m))%Qc /\ (forall x, x < n -> (Qcabs (K x) <= Qcabs (K m))%Qc) /\
    forall x, x < n -> K' x = (mx / Qcabs (K m) * K x)%Qc.
Lemma limited_out mx n K (F : err -> Prop) : 0 < n -> length K = n -> ((mx < 0)%Qc -> F NonFinite) ->
  outc (fun K' => length K' = n /\ limited mx n (fun x => nth x K 0%Qc) (fun x => nth x K' 0%Qc)) F (limited_step mx n K).
Proof.
  intros Hn HK HF. unfold limited_step. rewrite firstn_all2 by lia.
  destruct (max_abs_ok K) as (m & Em & Hm0 & (x & Hx & ->) & Hmax). { intros ->. cbn in HK. lia. }
  rewrite Em. cbn [bind]. destruct (qlt mx (Qcabs (nth x K 0%Qc))) eqn:EQ.
  - apply qlt_true in EQ. unfold fdiv. destruct (Qc_eq_dec _ _) as [Z|Z]; cbn [bind].
    + cbn [outc]. apply HF. rewrite Z in EQ. exact EQ.
    + destruct (scal n (mx / Qcabs (nth x K 0%Qc))%Qc K) as [K'|e] eqn:ES.
      * apply scal_inv in ES. destruct ES as [L R]. cbn [outc]. split; auto. right. exists x. split; [lia|]. split; auto. split; [intros; apply Hmax; lia|]. exact R.
      * exfalso. destruct (mapM_seq_ok (fun i => do xi <- at_ K i; Ok (mx / Qcabs (nth x K 0%Qc) * xi)%Qc) n 0%Qc) as (r & Er & _).
        { intros i Hi. rewrite (at_ok K i 0%Qc) by lia. cbn [bind]. eauto. }
        unfold scal in ES. rewrite Er in ES. discriminate.
  - apply qlt_false in EQ. cbn [outc]. split; auto. left. split; auto. intros y Hy. eapply Qcle_trans; [apply Hmax; lia|exact EQ].
Qed.
Lemma limited_bound mx n K K' : (0 <= mx)%Qc -> limited mx n K K' -> forall x, x < n -> (Qcabs (K' x) <= mx)%Qc.
Proof.
  intros H0 [[H1 H2]|(m & Hm & H1 & H2 & H3)] x Hx; [rewrite H2; auto|]. rewrite H3 by auto.
  assert (P : (0 < Qcabs (K m))%Qc) by (eapply Qcle_lt_trans; eauto).
  assert (NZ : Qcabs (K m) <> 0%Qc) by (intros Z; rewrite Z in P; discriminate).
  assert (Q : (0 <= mx / Qcabs (K m))%Qc).
  { apply (Qcmult_lt_0_le_reg_r _ _ (Qcabs (K m))); auto. rewrite Qcmult_0_l. unfold Qcdiv. rewrite <- Qcmult_assoc, (Qcmult_comm (/ _)), Qcmult_inv_r, Qcmult_1_r; auto. }
  rewrite qabs_mult, (qabs_pos (mx / Qcabs (K m))) by exact Q.
  apply Qcle_trans with (mx / Qcabs (K m) * Qcabs (K m))%Qc.
  - rewrite !(Qcmult_comm (mx / _)). apply Qcmult_le_compat_r; [apply H2; auto|exact Q].
  - unfold Qcdiv. rewrite <- Qcmult_assoc, (Qcmult_comm (/ _)), Qcmult_inv_r by auto. rewrite Qcmult_1_r. apply Qcle_refl.
Qed.

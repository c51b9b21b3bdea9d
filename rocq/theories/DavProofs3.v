From Coq Require Import QArith Qcanon.
From Verif Require Import Base SD Nondet SlaterCondon Ham HamProofs Asci Mem MemProofs Sums Sparse Spmv Dist Collective Diis
  DenseSpec DenseProofs DiisSpec DiisProofs DiisProofs2 RotProofs LinRespProofs ExpandProofs FockMatProofs PSpmvProofs2 Davidson DavSpec DavProofs DavProofs2.
Local Open Scope nat_scope.

Definition mv (N : nat) (A : nat -> nat -> Qc) (x : list Qc) : list Qc := map (matvec N A x) (seq 0 N).
Lemma nth_mv N A x m : m < N -> nth m (mv N A x) 0%Qc = matvec N A x m.
Proof. intros H. unfold mv. apply nth_map_seq. exact H. Qed.
Lemma expectation_dot N A x : expectation N A x = dot N x (mv N A x).
Proof. unfold expectation, dot. apply Sigma_ext. intros i Hi. rewrite nth_mv by exact Hi. reflexivity. Qed.
Lemma mv_sym N A u v : symmetric2 N A -> dot N u (mv N A v) = dot N v (mv N A u).
Proof.
  intros S. unfold dot.
  rewrite (Sigma_ext N _ (fun i => Sigma N (fun j => nth i u 0 * A i j * nth j v 0))%Qc) by (intros i Hi; rewrite nth_mv by exact Hi; unfold matvec; rewrite <- Sigma_scale; apply Sigma_ext; intros; ring).
  rewrite Sigma_swap. apply Sigma_ext. intros i Hi. rewrite nth_mv by exact Hi. unfold matvec. rewrite <- Sigma_scale. apply Sigma_ext.
  intros j Hj. rewrite (S j i Hj Hi). ring.
Qed.
Lemma dot_mv_lin N A K V c X w : (forall i, i < N -> nth i X 0%Qc = Sigma K (fun l => nth i (nth l V []) 0 * c l)%Qc) ->
  dot N w (mv N A X) = Sigma K (fun l => c l * dot N w (mv N A (nth l V [])))%Qc.
Proof.
  intros H. rewrite (dot_lin_r N K w (map (fun l => mv N A (nth l V [])) (seq 0 K)) c).
  - apply Sigma_ext. intros l Hl. f_equal. rewrite (nth_map_seq (fun l => mv N A (nth l V []))) by exact Hl. reflexivity.
  - intros i Hi. rewrite nth_mv by exact Hi. rewrite (matvec_lin N A K V c X i H). apply Sigma_ext. intros l Hl.
    rewrite (nth_map_seq (fun l => mv N A (nth l V []))) by exact Hl. rewrite nth_mv by exact Hi. reflexivity.
Qed.
Lemma gs_unit root N K V x y : exact_root root -> orthonormal N K V -> gram_schmidt root N K V x = Ok y -> dot N y y = 1%Qc.
Proof.
  intros HR O HG. destruct (gs_inv _ _ _ _ _ _ O HG) as (_ & _ & OY & q & s & a & Es & NZ & Q & _).
  destruct (HR q) as [Z|Z]; [exfalso; apply NZ; congruence|]. rewrite <- Es in Z. rewrite <- Z in Q.
  assert (E : dot N y y = (s * s * dot N y y / (s * s))%Qc) by (field; exact NZ). rewrite E, Q. field. exact NZ.
Qed.
Lemma orthonormal_extend root N K V x y V' : exact_root root -> orthonormal N K V -> gram_schmidt root N K V x = Ok y -> put V K y = Ok V' -> orthonormal N (K + 1) V'.
Proof.
  intros HR O HG HP. pose proof (gs_unit _ _ _ _ _ _ HR O HG) as U. destruct (gs_inv _ _ _ _ _ _ O HG) as (_ & _ & OY & _).
  apply (put_nth []) in HP. destruct HP as (_ & _ & F).
  intros u v Hu Hv. rewrite !F. destruct (Nat.eqb_spec u K) as [->|NU]; destruct (Nat.eqb_spec v K) as [->|NV].
  - rewrite Nat.eqb_refl. exact U.
  - destruct (Nat.eqb_spec K v); [lia|]. rewrite dot_comm. apply OY. lia.
  - destruct (Nat.eqb_spec u K); [lia|]. apply OY. lia.
  - apply O; lia.
Qed.

Section RITZ.
  Variables (N k : nat) (A : nat -> nat -> Qc) (V : list (list Qc)) (M C X : list Qc) (lam : Qc).
  Hypothesis SA : symmetric2 N A.
  Hypothesis OV : orthonormal N k V.
  Hypothesis FM : forall a b, a < k -> b < k -> at2 M k a b = dot N (nth a V []) (mv N A (nth b V [])).
  Hypothesis FX : forall m, m < N -> nth m X 0%Qc = Sigma k (fun l => nth m (nth l V []) 0 * nth l C 0)%Qc.
  Lemma M_sym : symmetric2 k (at2 M k).
  Proof. intros a b Ha Hb. rewrite !FM by assumption. apply mv_sym. exact SA. Qed.
  Lemma coefficient l : l < k -> dot N (nth l V []) X = nth l C 0%Qc.
  Proof.
    intros Hl. rewrite (dot_lin_r N k _ V (fun l => nth l C 0%Qc) X FX).
    rewrite (Sigma_ext k _ (fun a => (if a =? l then 1 else 0) * nth a C 0)%Qc).
    - apply Sigma_delta. exact Hl.
    - intros a Ha. rewrite OV, Nat.eqb_sym by assumption. ring.
  Qed.
  Hypothesis LE : lowest_eigenpair k (at2 M k) lam (fun i => nth i C 0%Qc).
  Lemma ritz_norm : dot N X X = 1%Qc.
  Proof.
    rewrite (dot_lin_r N k _ V (fun l => nth l C 0%Qc) X FX). destruct LE as (<- & _). apply Sigma_ext.
    intros l Hl. rewrite dot_comm, coefficient by exact Hl. reflexivity.
  Qed.
  Lemma ritz_galerkin l : l < k -> dot N (nth l V []) (mv N A X) = (lam * dot N (nth l V []) X)%Qc.
  Proof.
    intros Hl. rewrite (dot_mv_lin N A k V (fun l => nth l C 0%Qc) X _ FX), coefficient by exact Hl.
    destruct LE as (_ & E & _). rewrite <- E by exact Hl. apply Sigma_ext. intros b Hb. rewrite FM by assumption. ring.
  Qed.
  Lemma ritz_value : expectation N A X = lam.
  Proof.
    rewrite expectation_dot, dot_comm, (dot_lin_r N k _ V (fun l => nth l C 0%Qc) X FX).
    rewrite (Sigma_ext k _ (fun l => lam * (nth l C 0 * nth l C 0))%Qc).
    - rewrite Sigma_scale. destruct LE as (E & _). unfold norm2 in E. rewrite E. ring.
    - intros l Hl. rewrite dot_comm, ritz_galerkin, coefficient by exact Hl. ring.
  Qed.
  Lemma ritz_below l : l < k -> (lam <= expectation N A (nth l V []))%Qc.
  Proof.
    intros Hl. destruct LE as (_ & _ & B). specialize (B (fun j => if j =? l then 1 else 0)%Qc).
    rewrite expectation_dot, <- FM by exact Hl.
    replace (norm2 k (fun j => if j =? l then 1 else 0)%Qc) with 1%Qc in B.
    2: { unfold norm2. rewrite (Sigma_delta k l (fun j => if j =? l then 1 else 0)%Qc) by exact Hl. rewrite Nat.eqb_refl. reflexivity. }
    rewrite Qcmult_1_r in B. eapply Qcle_trans; [exact B|].
    rewrite (Sigma_delta k l (fun i => Sigma k (fun j => at2 M k i j * (if j =? l then 1 else 0)))%Qc) by exact Hl.
    rewrite (Sigma_ext k _ (fun j => (if j =? l then 1 else 0) * at2 M k l j)%Qc) by (intros; ring).
    rewrite (Sigma_delta k l (fun j => at2 M k l j)) by exact Hl. apply Qcle_refl.
  Qed.
End RITZ.

Lemma loop_variational root syev N A op D tol : multiplies N A op -> exact_root root -> eigensolver syev -> symmetric2 N A ->
  forall rem i V AV X it lam Y, columns N i A V AV -> orthonormal N (i + 1) V ->
  davidson_loop root syev N op D tol rem i V AV X (Ok (it, lam, Y)) ->
  dot N Y Y = 1%Qc /\ expectation N A Y = lam /\ (lam <= expectation N A (nth 0 V []))%Qc.
Proof.
  intros HO HR HE SA. induction rem as [|rem IH]; intros i V AV X it lam Y CO OV H; [discriminate H|].
  destruct (loop_step _ _ _ _ _ _ _ _ _ _ _ _ _ HO CO H) as (AV' & M & W & C & X' & CO' & HS & LM & FM & LX & FX & [(Q & E)|(Q & R0 & R & V' & HG & HP & H')]).
  - injection E as -> -> ->.
    assert (FM' : forall a b, a < i + 1 -> b < i + 1 -> at2 M (i + 1) a b = dot N (nth a V []) (mv N A (nth b V []))) by (intros; apply FM; lia).
    destruct (HE _ _ _ _ HS LM (M_sym _ _ _ _ _ SA FM')) as (_ & _ & LE).
    split; [eapply ritz_norm; eassumption|]. split; [eapply ritz_value; eassumption|]. eapply ritz_below; eauto. lia.
  - destruct (IH (S i) V' AV' X' it lam Y) as (B & L & U).
    + eapply columns_put; [exact CO'|exact HG|lia|exact HP].
    + replace (S i + 1) with ((i + 1) + 1) by lia. eapply orthonormal_extend; eassumption.
    + exact H'.
    + split; [exact B|]. split; [exact L|]. apply (put_nth []) in HP. destruct HP as (_ & _ & F). rewrite F in U.
      destruct (Nat.eqb_spec 0 (i + 1)); [lia|]. exact U.
Qed.
Lemma orthonormal_1 N V : dot N (nth 0 V []) (nth 0 V []) = 1%Qc -> orthonormal N 1 V.
Proof. intros H a b Ha Hb. assert (a = 0) by lia. assert (b = 0) by lia. subst. exact H. Qed.
Lemma run_variational root syev N max_m A op D tol X it lam Y : multiplies N A op -> exact_root root -> eigensolver syev -> symmetric2 N A ->
  dot N X X = 1%Qc -> davidson_run root syev N max_m op D tol X (Ok (it, lam, Y)) ->
  dot N Y Y = 1%Qc /\ expectation N A Y = lam /\ (lam <= expectation N A X)%Qc /\ forall b, spectrum_above N A b -> (b <= lam)%Qc.
Proof.
  intros HO HR HE SA HX H. destruct (run_start _ _ _ _ _ _ _ _ _ _ HO H) as (V & AV & v1 & LX & Hm & CO & V0 & V1 & (V' & av & E0 & Lav & Fav & HG) & HL).
  assert (FN : forall m, m < N -> nth m (firstn N X) 0%Qc = nth m X 0%Qc) by (intros m Hm'; rewrite nth_firstn by exact Hm'; reflexivity).
  assert (E : dot N (firstn N X) (firstn N X) = dot N X X) by (unfold dot; apply Sigma_ext; intros m Hm'; rewrite FN by exact Hm'; reflexivity).
  assert (EE : expectation N A (firstn N X) = expectation N A X).
  { unfold expectation. apply Sigma_ext. intros m Hm'. rewrite FN by exact Hm'. f_equal. unfold matvec. apply Sigma_ext. intros j Hj. rewrite FN by exact Hj. reflexivity. }
  assert (O2 : orthonormal N (1 + 1) V).
  { assert (O1 : orthonormal N 1 V') by (apply orthonormal_1; rewrite E0, E; exact HX).
    pose proof (gs_unit _ _ _ _ _ _ HR O1 HG) as U. destruct (gs_inv _ _ _ _ _ _ O1 HG) as (_ & _ & OY & _).
    specialize (OY 0 (Nat.lt_0_succ 0)). rewrite E0 in OY.
    intros a b Ha Hb. destruct a as [|[|a]]; [| |lia]; (destruct b as [|[|b]]; [| |lia]); cbn [Nat.eqb]; rewrite ?V0, ?V1.
    - rewrite E. exact HX.
    - exact OY.
    - rewrite dot_comm. exact OY.
    - exact U. }
  destruct (loop_variational _ _ _ _ _ _ _ HO HR HE SA _ _ _ _ _ _ _ _ CO O2 HL) as (B & L & T).
  split; [exact B|]. split; [exact L|]. split; [rewrite V0, EE in T; exact T|].
  intros b Hb. specialize (Hb Y). rewrite B, L, Qcmult_1_r in Hb. exact Hb.
Qed.

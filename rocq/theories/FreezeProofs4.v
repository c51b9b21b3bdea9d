(** Lower bounds of the spectrum of a space of determinants hold for its subspaces, and what
    freezing does to energies, residuals and bounds. *)
From Coq Require Import QArith Qcanon.
From Verif Require Import Base SD Spec Sums FockSpec FockProofs SlaterCondon Ham DenseSpec DenseProofs DiisSpec DavSpec McscfSpec
  SDProofs SDProofs2 HamProofs HamProofs2 HamProofs3 PropsHamGlue FreezeSpec FreezeProofs FreezeProofs2 FreezeProofs3 FreezeGlue.
Local Open Scope nat_scope.

Lemma ci_zero W h sds i j : ci_matrix W h 0%Qc sds i j = ham W (norb h) (T_pq h) (V_pqrs h) (nth i sds 0%N) (nth j sds 0%N).
Proof.
  unfold ci_matrix. cbv zeta. set (x := ham _ _ _ _ _ _). destruct (qlt 0 (Qcabs x)) eqn:E; auto.
  symmetry. unfold qlt in E. destruct (Qclt_le_dec 0 (Qcabs x)) as [|L]; [discriminate|].
  unfold Qcabs, qlt in L. destruct (Qclt_le_dec x 0) as [A|A].
  - exfalso. apply (Qclt_not_le _ _ A). replace x with (- - x)%Qc by ring. apply Qcopp_le_compat in L. replace (-0)%Qc with 0%Qc in L by reflexivity. exact L.
  - apply Qcle_antisym; auto.
Qed.
Lemma Sigma_list (l : list N) (f : N -> Qc) : Sigma (length l) (fun i => f (nth i l 0%N)) = sum l f.
Proof.
  unfold Sigma. transitivity (sum (map (fun i => nth i l 0%N) (seq 0 (length l))) f); [rewrite sum_map; reflexivity|].
  f_equal. clear. induction l as [|a l IH]; auto. cbn [length seq map nth]. f_equal. rewrite <- seq_shift, map_map. exact IH.
Qed.
Definition coef (L : list N) (Y : list Qc) (d : N) : Qc := Sigma (length L) (fun i => if (nth i L 0 =? d)%N then nth i Y 0 else 0)%Qc.
Lemma coef_at L Y i : NoDup L -> i < length L -> coef L Y (nth i L 0%N) = nth i Y 0%Qc.
Proof.
  intros ND Hi. unfold coef, Sigma. rewrite (sum_support _ [i]).
  - cbn [sum]. rewrite N.eqb_refl. ring.
  - apply seq_NoDup.
  - apply NoDup_cons; [intros []|apply NoDup_nil].
  - intros a [<-|[]]. apply in_seq. lia.
  - intros a Ha Hn. apply in_seq in Ha. destruct (N.eqb_spec (nth a L 0%N) (nth i L 0%N)) as [E|]; auto.
    exfalso. apply Hn. left. symmetry. apply (proj1 (NoDup_nth L 0%N) ND); auto; lia.
Qed.
Lemma coef_out L Y d : ~ In d L -> coef L Y d = 0%Qc.
Proof.
  intros H. unfold coef, Sigma. apply sum_zero. intros i Hi. apply in_seq in Hi. destruct (N.eqb_spec (nth i L 0%N) d) as [E|]; auto.
  exfalso. apply H. rewrite <- E. apply nth_In. lia.
Qed.
(** a wave function over some of the determinants is one over all of them *)
Lemma extend_dets W h L D Y : NoDup L -> NoDup D -> incl L D -> exists Z, length Z = length D /\ dot (length D) Z Z = dot (length L) Y Y /\
  expectation (length D) (ci_matrix W h 0%Qc D) Z = expectation (length L) (ci_matrix W h 0%Qc L) Y.
Proof.
  intros NL ND I. exists (map (coef L Y) D). split; [apply map_length|].
  assert (At : forall i, i < length D -> nth i (map (coef L Y) D) 0%Qc = coef L Y (nth i D 0%N)).
  { intros i Hi. rewrite (nth_indep _ 0%Qc (coef L Y 0%N)) by (rewrite map_length; auto). apply map_nth. }
  set (H := fun x y => ham W (norb h) (T_pq h) (V_pqrs h) x y).
  assert (E1 : dot (length D) (map (coef L Y) D) (map (coef L Y) D) = dot (length L) Y Y).
  { unfold dot. transitivity (Sigma (length D) (fun i => coef L Y (nth i D 0%N) * coef L Y (nth i D 0%N))%Qc).
    - unfold Sigma. apply sum_ext. intros i Hi. apply in_seq in Hi. rewrite At by lia. reflexivity.
    - rewrite (Sigma_list D (fun d => coef L Y d * coef L Y d)%Qc). rewrite (sum_support D L); auto.
      + rewrite <- (Sigma_list L). unfold Sigma. apply sum_ext. intros i Hi. apply in_seq in Hi. rewrite coef_at by (auto; lia). reflexivity.
      + intros d _ Hd. rewrite coef_out by auto. ring. }
  assert (E2 : expectation (length D) (ci_matrix W h 0%Qc D) (map (coef L Y) D) = expectation (length L) (ci_matrix W h 0%Qc L) Y).
  { unfold expectation, matvec.
    assert (G : forall x, Sigma (length D) (fun j => H x (nth j D 0%N) * nth j (map (coef L Y) D) 0)%Qc = Sigma (length L) (fun j => H x (nth j L 0%N) * nth j Y 0)%Qc).
    { intros x. transitivity (Sigma (length D) (fun i => H x (nth i D 0%N) * coef L Y (nth i D 0%N))%Qc).
      - unfold Sigma. apply sum_ext. intros i Hi. apply in_seq in Hi. rewrite At by lia. reflexivity.
      - rewrite (Sigma_list D (fun d => H x d * coef L Y d)%Qc). rewrite (sum_support D L); auto.
        + rewrite <- (Sigma_list L). unfold Sigma. apply sum_ext. intros i Hi. apply in_seq in Hi. rewrite coef_at by (auto; lia). reflexivity.
        + intros d _ Hd. rewrite coef_out by auto. ring. }
    transitivity (Sigma (length D) (fun i => coef L Y (nth i D 0%N) * Sigma (length L) (fun j => H (nth i D 0%N) (nth j L 0%N) * nth j Y 0))%Qc).
    - unfold Sigma at 1 3. apply sum_ext. intros i Hi. apply in_seq in Hi. rewrite At by lia. f_equal. rewrite <- G.
      unfold Sigma. apply sum_ext. intros j _. rewrite ci_zero. reflexivity.
    - rewrite (Sigma_list D (fun d => coef L Y d * Sigma (length L) (fun j => H d (nth j L 0%N) * nth j Y 0))%Qc). rewrite (sum_support D L); auto.
      + rewrite <- (Sigma_list L). unfold Sigma at 1 3. apply sum_ext. intros i Hi. apply in_seq in Hi. rewrite coef_at by (auto; lia). f_equal.
        unfold Sigma. apply sum_ext. intros j _. rewrite ci_zero. reflexivity.
      + intros d _ Hd. rewrite coef_out by auto. ring. }
  split; assumption.
Qed.
(** a lower bound for a space is one for a subspace *)
Lemma spectrum_subset W h L D b : NoDup L -> NoDup D -> incl L D ->
  spectrum_above (length D) (ci_matrix W h 0%Qc D) b -> spectrum_above (length L) (ci_matrix W h 0%Qc L) b.
Proof. intros NL ND I B Y. destruct (extend_dets W h L D Y NL ND I) as (Z & _ & E1 & E2). rewrite <- E1, <- E2. apply B. Qed.

Section Frozen.
  Variables (W W2 no ni na : nat) (T : nat -> nat -> Qc) (V : nat -> nat -> nat -> nat -> Qc).
  Hypothesis Hno : no <= W2 / 2.
  Hypothesis Hna : na <= W / 2.
  Hypothesis Hi : ni + na <= no.
  Hypothesis Sy : exchange_symmetric no V.
  Local Notation full := (mk_ints no T V).
  Local Notation act := (mk_ints na (active_T ni T V) (active_V ni V)).

  Lemma nth_freeze dets i : i < length dets -> nth i (map (freeze W W2 ni) dets) 0%N = freeze W W2 ni (nth i dets 0%N).
  Proof. intros H. rewrite (nth_indep _ 0%N (freeze W W2 ni 0%N)) by (rewrite map_length; auto). apply map_nth. Qed.
  Lemma ci_freeze dets i j : NoDup dets -> (forall b, In b dets -> in_space W na b) -> i < length dets -> j < length dets ->
    ci_matrix W2 full 0%Qc (map (freeze W W2 ni) dets) i j = ((if i =? j then core_energy ni T V else 0) + ci_matrix W act 0%Qc dets i j)%Qc.
  Proof.
    intros ND A H1 H2. rewrite !ci_zero. cbn [norb T_pq V_pqrs]. rewrite !nth_freeze by auto.
    rewrite (ham_freeze W W2 no ni na T V); auto using nth_In. f_equal.
    destruct (Nat.eqb_spec i j) as [->|NE]; [rewrite N.eqb_refl; reflexivity|].
    destruct (N.eqb_spec (nth i dets 0%N) (nth j dets 0%N)) as [E|]; auto. exfalso. apply NE. apply (proj1 (NoDup_nth dets 0%N) ND); auto.
  Qed.
  Lemma matvec_freeze dets Y i : NoDup dets -> (forall b, In b dets -> in_space W na b) -> i < length dets ->
    matvec (length dets) (ci_matrix W2 full 0%Qc (map (freeze W W2 ni) dets)) Y i =
    (core_energy ni T V * nth i Y 0 + matvec (length dets) (ci_matrix W act 0%Qc dets) Y i)%Qc.
  Proof.
    intros ND A H1. unfold matvec, Sigma.
    transitivity (sum (seq 0 (length dets)) (fun j => (if i =? j then core_energy ni T V * nth i Y 0 else 0) + ci_matrix W act 0 dets i j * nth j Y 0)%Qc).
    - apply sum_ext. intros j Hj. apply in_seq in Hj. rewrite ci_freeze by (auto; lia). destruct (Nat.eqb_spec i j) as [->|]; ring.
    - rewrite sum_plus. f_equal. rewrite (sum_support _ [i]).
      + cbn [sum]. rewrite Nat.eqb_refl. ring.
      + apply seq_NoDup.
      + apply NoDup_cons; [intros []|apply NoDup_nil].
      + intros a [<-|[]]. apply in_seq. lia.
      + intros a _ Hn. destruct (Nat.eqb_spec i a) as [->|]; auto. exfalso. apply Hn. left. auto.
  Qed.
  Lemma expectation_freeze dets Y : NoDup dets -> (forall b, In b dets -> in_space W na b) ->
    expectation (length dets) (ci_matrix W2 full 0%Qc (map (freeze W W2 ni) dets)) Y =
    (core_energy ni T V * dot (length dets) Y Y + expectation (length dets) (ci_matrix W act 0%Qc dets) Y)%Qc.
  Proof.
    intros ND A. unfold expectation, dot. unfold Sigma at 1 2 3. rewrite <- sum_scale, <- sum_plus. apply sum_ext. intros i H. apply in_seq in H.
    rewrite matvec_freeze by (auto; lia). ring.
  Qed.
  Lemma residual_freeze dets Y lam : NoDup dets -> (forall b, In b dets -> in_space W na b) ->
    residual2 (length dets) (ci_matrix W2 full 0%Qc (map (freeze W W2 ni) dets)) (core_energy ni T V + lam)%Qc Y =
    residual2 (length dets) (ci_matrix W act 0%Qc dets) lam Y.
  Proof.
    intros ND A. unfold residual2, norm2. unfold Sigma at 1 2. apply sum_ext. intros i H. apply in_seq in H.
    rewrite matvec_freeze by (auto; lia). ring.
  Qed.
  Lemma NoDup_freeze dets : NoDup dets -> (forall b, In b dets -> in_space W na b) -> NoDup (map (freeze W W2 ni) dets).
  Proof.
    intros ND A. apply NoDup_map_inj; auto. intros a b Ha Hb E. apply (freeze_inj W W2 ni na ltac:(lia) ltac:(lia)); auto.
  Qed.
  Lemma variational_freeze D dets nalpha nbeta b : whole_space W2 no (ni + nalpha) (ni + nbeta) D -> NoDup dets ->
    (forall d, In d dets -> in_space W na d /\ size_is (alpha W d) nalpha /\ size_is (beta W d) nbeta) ->
    spectrum_above (length D) (ci_matrix W2 full 0%Qc D) b -> spectrum_above (length dets) (ci_matrix W act 0%Qc dets) (b - core_energy ni T V)%Qc.
  Proof.
    intros (ND & ID) NL A B Y.
    assert (A' : forall d, In d dets -> in_space W na d) by (intros d Hd; apply A; auto).
    pose proof (spectrum_subset W2 full (map (freeze W W2 ni) dets) D b) as S1.
    specialize (S1 (NoDup_freeze dets NL A') ND).
    assert (I : incl (map (freeze W W2 ni) dets) D).
    { intros d Hd. apply in_map_iff in Hd. destruct Hd as (x & <- & Hx). apply ID. destruct (A x Hx) as (P1 & P2 & P3). apply freeze_electrons with na; auto. }
    specialize (S1 I B Y). rewrite map_length in S1. rewrite expectation_freeze in S1 by auto.
    apply Qcle_minus_iff in S1. apply Qcle_minus_iff.
    match goal with |- (0 <= ?x)%Qc => match type of S1 with (0 <= ?y)%Qc => replace x with y by ring end end. exact S1.
  Qed.
End Frozen.

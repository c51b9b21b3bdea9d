(** Growth with natural orbitals on several ranks. *)
From Coq Require Import QArith Qcanon Bool.
From Verif Require Import Base Nondet SD Spec Sums FockSpec SlaterCondon Ham Mem MemProofs Mcscf Dense DenseSpec DenseProofs DiisSpec ExpandProofs DavSpec DavProofs2 DavProofs14 DavProofs11 McscfSpec CasciSpec McscfProofs McscfProofs6
  Asci AsciSpec AsciIter Constraint Collective CollectiveSpec CollectiveProofs AsciMpi Davidson AsciPar AsciParSpec AsciParProofs4 AsciRot AsciRotSpec AsciRotProofs AsciRotPar AsciRotParSpec.
Local Open Scope nat_scope.
Local Opaque INT_MAX.

Lemma agreed_repeat {A} (dec : forall a b : A, {a = b} + {a <> b}) a k : 0 < k -> agreed dec (repeat a k) = Ok a.
Proof.
  destruct k as [|k]; [lia|]. intros _. cbn [repeat agreed].
  assert (E : forallb (fun b => if dec a b then true else false) (repeat a k) = true).
  { apply forallb_forall. intros t T. apply repeat_spec in T. subst t. destruct (dec a a); [reflexivity|contradiction]. }
  rewrite E. reflexivity.
Qed.
Lemma intmax_pos : 0 < Z.to_nat INT_MAX.
Proof. Local Transparent INT_MAX. unfold INT_MAX. Local Opaque INT_MAX. lia. Qed.
(** the arrays of rank 0 reach all ranks *)
Lemma bcast_all {A} n (a b : list A) P : 0 < P -> length a = n -> length b = n -> n < Z.to_nat INT_MAX ->
  bcast n 0 (a :: repeat b (P - 1)) = Ok (repeat a P).
Proof.
  intros HP La Lb Hn. unfold bcast.
  rewrite (bcast_chunked_ok true (Z.to_nat INT_MAX) n 0 a (a :: repeat b (P - 1))).
  - f_equal. destruct P as [|k]; [lia|]. replace (S k - 1) with k by lia. cbn [map repeat]. f_equal.
    + unfold bcasted. rewrite <- La. rewrite firstn_all, skipn_all, app_nil_r. reflexivity.
    + induction k as [|k IH]; [reflexivity|]. cbn [repeat map]. rewrite IH by lia. f_equal. unfold bcasted.
      rewrite <- La at 1. rewrite firstn_all. rewrite <- Lb. rewrite skipn_all, app_nil_r. reflexivity.
  - exact intmax_pos.
  - auto.
  - reflexivity.
  - apply Forall_forall. intros x [<-|Hx]; [lia|]. apply repeat_spec in Hx. subst x. lia.
Qed.
Lemma bcast_inv {A} n root (bufs out : list (list A)) : bcast n root bufs = Ok out -> n < Z.to_nat INT_MAX.
Proof.
  intros H. destruct (Nat.lt_ge_cases n (Z.to_nat INT_MAX)) as [|G]; [assumption|exfalso].
  unfold bcast in H. rewrite (bcast_chunked_refuses _ _ _ _ intmax_pos G) in H. discriminate.
Qed.

Section ROT.
  Variables (root : Qc -> Qc) (syevD syev : nat -> list Qc -> res (list Qc * list Qc)) (W n na nb : nat).
  Hypothesis Hsy : all_eigenpairs syev.
  Hypothesis HW : spin_width W.
  Hypothesis H0 : 0 < n.
  Hypothesis Hn : n <= W / 2.
  Variables (p : par) (dbg : bool) (st : settings) (rs : rot_settings).
  Hypothesis Hd : dbg = true -> na < n /\ nb < n.
  Hypothesis HP : 0 < p_ranks p.
  Hypothesis Ht : (0 <= p_thr p)%Qc.
  Notation P := (p_ranks p).
  Notation exact_size TV := (length (fst TV) = n * n /\ length (snd TV) = n * n * (n * n)).

  Lemma rotate_mpi_ok wfn X T V T' V' : valid_dets W n na nb wfn -> length X = length wfn -> exact_size (T, V) ->
    rotate_integrals_mpi syev P W n wfn X T V = Ok (T', V') ->
    exact_size (T', V') /\ exists g G occ U, densities_of W n (combine wfn X) g G /\ natural n g occ U /\
      rotated n U (at2 T n) (at4 V n) (at2 T' n) (at4 V' n).
  Proof.
    intros Hv LX [L1 L2]. cbn [fst snd] in L1, L2. unfold rotate_integrals_mpi.
    destruct (natural_orbitals syev W n wfn X) as [[ONS C]|] eqn:EN; [|discriminate]. cbn [bind snd].
    destruct (natural_ok syev W n na nb Hsy HW H0 Hn wfn X ONS C Hv LX EN) as (LC & g & G & D & Nat).
    destruct (rotate_ok W n H0 Hn C T V LC) as (T1 & V1 & E & LT & LV & AT & AV); [unfold roomy; cbn [fst snd]; lia|].
    rewrite E. cbn [bind fst snd].
    destruct (bcast (n * n) 0 (T1 :: repeat T (P - 1))) as [Ts|] eqn:E1; [|discriminate].
    pose proof (bcast_inv _ _ _ _ E1) as B1. rewrite (bcast_all (n * n) T1 T P HP) in E1 by lia. injection E1 as <-. cbn [bind].
    destruct (bcast (n * n * (n * n)) 0 (V1 :: repeat V (P - 1))) as [Vs|] eqn:E2; [|discriminate].
    pose proof (bcast_inv _ _ _ _ E2) as B2. rewrite (bcast_all (n * n * (n * n)) V1 V P HP) in E2 by lia. injection E2 as <-. cbn [bind].
    rewrite !agreed_repeat by exact HP. cbn [bind]. intros Q. injection Q as <- <-. cbn [fst snd]. split; [split; lia|].
    exists g, G, (fun i => nth i ONS 0%Qc), (at2 C n). split; [exact D|]. split; [exact Nat|]. split; [apply Nat|]. split; [exact AT|exact AV].
  Qed.

  Lemma pair_sym_held TV : pair_symmetric n (at4 (snd TV) n) ->
    forall p q r s, p < norb (held n TV) -> q < norb (held n TV) -> r < norb (held n TV) -> s < norb (held n TV) ->
      V_pqrs (held n TV) p q r s = V_pqrs (held n TV) r s p q.
  Proof. intros S. exact S. Qed.

  Lemma rotation_mpi_ok wfn X T V : valid_dets W n na nb wfn -> length X = length wfn -> exact_size (T, V) ->
    pair_symmetric n (at4 V n) -> (Z.of_nat (length wfn * P) < 2 ^ 31)%Z ->
    if_returns (grow_rotation_mpi root syevD syev p dbg W n wfn X T V) (fun R => let '(T', V', X') := R in
      exact_size (T', V') /\ pair_symmetric n (at4 V' n) /\
      forall E, natural_rotation_mpi root W n (p_thr p) (p_tol p) (E, wfn, X) (T, V) (T', V') X').
  Proof.
    intros Hv LX SZ PS HZ. unfold grow_rotation_mpi.
    eapply returns_bind with (P := fun TV => rotate_integrals_mpi syev P W n wfn X T V = Ok TV); [intros a Ha; symmetry; exact Ha|].
    intros [T' V'] ER. destruct (rotate_mpi_ok wfn X T V T' V' Hv LX SZ ER) as (SZ' & g & G & occ & U & D & Nat & Ro).
    assert (PS' : pair_symmetric n (at4 V' n)) by exact (rotated_pair n _ _ _ _ _ Ro PS).
    rewrite (span_held n T' V') by (unfold roomy; cbn [fst snd] in *; lia).
    eapply returns_bind with (P := fun h => h = held n (T', V')); [intros a Ha; unfold det in Ha; congruence|]. intros h ->.
    intros r Hr. apply DavProofs2.nd_inv in Hr. destruct Hr as ([Es Ys] & HD & Hr). cbn [snd] in Hr.
    pose proof (pair_sym_held (T', V') PS') as VS.
    destruct (p_ci_residual root syevD dbg W (held n (T', V')) (p_thr p) wfn na nb P (p_sub p) (p_tol p) (repeat [] P) Es Ys HW Hn VS (proj2 Hv) Ht HP HZ (repeat_length _ _) HD) as (E' & -> & LY & RS).
    rewrite (diag_gather root syevD W HW (held n (T', V')) Hn VS p dbg na nb Hd HP Ht wfn (repeat E' P) Ys X Hv HZ HD) in Hr.
    apply DavProofs2.nd_inv in Hr. destruct Hr as (Xs & HX & Hr). unfold det in HX. injection HX as ->.
    rewrite agreed_repeat in Hr by exact HP. apply DavProofs2.nd_inv in Hr. destruct Hr as (X' & HX & Hr). unfold det in HX. injection HX as ->.
    unfold ret in Hr. injection Hr as ->. split; [exact SZ'|]. split; [exact PS'|].
    intros E. split; [exists g, G, occ, U; auto|]. split; [exact LY|]. exists E'. exact RS.
  Qed.

  Notation pass := (grow_pass_mpi root W n (p_thr p) (p_tol p) st (grow_with_rot rs) (rot_size_start rs)).
  Notation tgt a := (Nat.min (Nat.max (ntdets_min st) (wfn_size a * grow_factor st)) (ntdets_max st)).
  Hypothesis HM : (Z.of_nat (ntdets_max st * P) < 2 ^ 31)%Z.
  Hypothesis Hg : 1 <= grow_factor st.
  Lemma grow_rot_mpi_ok fuel g : forall TV s, exact_size TV -> pair_symmetric n (at4 (snd TV) n) ->
    wfn_size s <= ntdets_max st -> valid_dets W n na nb (wfn_dets s) -> length (snd s) = wfn_size s ->
    if_returns (asci_grow_rot_mpi root syevD syev fuel p g dbg W n st rs TV s) (fun r =>
      wfn_size (fst r) = ntdets_max st /\ valid_dets W n na nb (wfn_dets (fst r)) /\
      exact_size (snd r) /\
      exists l, last ((s, TV) :: l) (s, TV) = r /\ path pass ((s, TV) :: l)).
  Proof.
    induction fuel as [|f IH]; intros TV [[E0 wfn] X] SZ PS S2 HV LX; cbn [asci_grow_rot_mpi].
    - unfold wfn_size in *. cbn [fst snd] in *. destruct (Nat.ltb_spec (length wfn) (ntdets_max st)) as [Hl|Hl]; [apply returns_det; discriminate|].
      apply returns_ret. cbn [fst snd]. split; [lia|]. split; [exact HV|]. split; [exact SZ|]. exists []. split; [reflexivity|exact I].
    - destruct (Nat.ltb_spec (length wfn) (ntdets_max st)) as [Hl|Hl].
      2:{ unfold wfn_size in *. apply returns_ret. cbn [fst snd] in *. split; [lia|]. split; [exact HV|]. split; [exact SZ|]. exists []. split; [reflexivity|exact I]. }
      destruct TV as [T V]. rewrite (span_held n (fst (T, V)) (snd (T, V))) by (unfold roomy; cbn [fst snd] in *; lia). cbn [fst snd].
      eapply returns_bind with (P := fun h => h = held n (T, V)); [intros a Ha; unfold det in Ha; congruence|]. intros h ->.
      set (s := (E0, wfn, X)) in *. change (length wfn) with (wfn_size s) in *.
      assert (LL : Nat.min (ncdets_max st) (wfn_size s) <= tgt s). { assert (wfn_size s <= wfn_size s * grow_factor st) by nia. lia. }
      pose proof (pair_sym_held (T, V) PS) as VS.
      eapply returns_bind; [apply (iter_mpi_ok root syevD W HW (held n (T, V)) Hn VS p dbg st na nb Hd HP Ht (g f) (tgt s) s HV LX LL); nia|]. cbn beta. intros ss (s1 & -> & V1 & P1).
      eapply returns_bind with (P := fun x => x = s1); [apply returns_det; intros x E; rewrite common_repeat in E by exact HP; congruence|]. intros x ->.
      pose proof P1 as (_ & Hlen & LX1 & _). destruct s1 as [[E wfn1] X1]. change (length wfn1) with (wfn_size (E, wfn1, X1)). set (m := (E, wfn1, X1)) in *.
      destruct (Nat.ltb_spec (wfn_size m) (tgt s)) as [|Hge]; [apply returns_det; discriminate|].
      assert (Sm : wfn_size m = tgt s) by lia. assert (Sm' : wfn_size m <= ntdets_max st) by lia.
      rewrite Sm. destruct (grow_with_rot rs && (rot_size_start rs <=? tgt s)) eqn:Er.
      + eapply returns_bind; [apply (rotation_mpi_ok wfn1 X1 T V V1 LX1 SZ PS); change (length wfn1) with (wfn_size m); nia|].
        intros [[T' V'] X'] (SZ' & PS' & NR). specialize (NR E). fold m in NR.
        eapply returns_weaken; [|apply (IH (T', V') (E, wfn1, X') SZ' PS' Sm' V1)].
        2:{ exact (proj1 (proj2 NR)). }
        intros r (A & B & C & l & El & Pl). split; [exact A|]. split; [exact B|]. split; [exact C|].
        exists (((E, wfn1, X'), (T', V')) :: l). split; [rewrite <- El; apply last_nonempty|]. split; [|exact Pl].
        exists m. cbn [fst snd]. cbv zeta. rewrite Er.
        split; [exact P1|]. split; [exact Hl|]. split; [exact Sm|]. split; [reflexivity|]. split; [reflexivity|exact NR].
      + eapply returns_weaken; [|apply (IH (T, V) m SZ PS Sm' V1 LX1)].
        intros r (A & B & C & l & El & Pl). split; [exact A|]. split; [exact B|]. split; [exact C|].
        exists ((m, (T, V)) :: l). split; [rewrite <- El; apply last_nonempty|]. split; [|exact Pl].
        exists m. cbn [fst snd]. cbv zeta. rewrite Er.
        split; [exact P1|]. split; [exact Hl|]. split; [exact Sm|]. split; [reflexivity|]. split; [reflexivity|]. split; reflexivity.
  Qed.

  (** along the passes the integrals are orthogonally transformed *)
  Lemma pass_mpi_rotated a b : pass a b -> exists U, rotated n U (at2 (fst (snd a)) n) (at4 (snd (snd a)) n) (at2 (fst (snd b)) n) (at4 (snd (snd b)) n).
  Proof.
    intros (m & _ & _ & _ & _ & _ & H). destruct (_ && _).
    - destruct H as [(g & G & occ & U & _ & _ & Ro) _]. eauto.
    - destruct H as [-> _]. exists identity. apply rotated_refl.
  Qed.
  Lemma path_mpi_rotated l : forall a r, path pass (a :: l) -> last (a :: l) a = r ->
    exists U, rotated n U (at2 (fst (snd a)) n) (at4 (snd (snd a)) n) (at2 (fst (snd r)) n) (at4 (snd (snd r)) n).
  Proof.
    induction l as [|b l IH]; intros a r Pa E.
    - cbn [last] in E. subst r. exists identity. apply rotated_refl.
    - destruct Pa as [P1 P2]. destruct (pass_mpi_rotated a b P1) as (U1 & R1).
      assert (E' : last (b :: l) b = r) by (rewrite <- E; symmetry; apply last_nonempty).
      destruct (IH b r P2 E') as (U2 & R2). exists (product n U1 U2). eapply rotated_trans; eassumption.
  Qed.
End ROT.

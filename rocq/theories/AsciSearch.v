(** Contributions of one core determinant, and the serial search. *)
From Coq Require Import QArith Qcanon Sorting.Permutation Sorting.Sorted.
From Verif Require Import Base Nondet Bits BitsProofs SD Spec SDProofs SDProofs2 SDProofs3 SDProofs4 SDProofs5 Sums
  FockSpec FockProofs SlaterCondon Ham
  HamProofs HamProofs2 HamProofs3 HamProofs4 HamProofs5 HamProofs6 HamProofs7 HamProofs8 PropsHamGlue
  Asci AsciSpec AsciSort AsciContrib AsciContrib2.
Local Open Scope nat_scope.

Section DET.
  Variables (W : nat) (HW : spin_width W) (h : ints).
  Notation n := (norb h).
  Hypothesis Hn : n <= W / 2.
  Hypothesis Vs : forall p q r s, p < n -> q < n -> r < n -> s < n ->
     V_pqrs h p q r s = V_pqrs h r s p q.
  Notation Hm := (ham W n (T_pq h) (V_pqrs h)).
  Variables (tol E0 : Qc) (so : bool).

  Definition targets (D : N) : list N :=
    T1 W h D false ++ T1 W h D true ++
    (if so then [] else T2 W h D false ++ T2 W h D true ++ TO W h D).
  Definition kept (D : N) : list N := filter (big W h tol D) (targets D).
  Definition contribs (c : Qc) (D : N) : list contrib := map (fun t => (t, pt_coeff W h E0 c D t)) (kept D).

  Lemma big_spec D t : big W h tol D t = true <-> (tol <= Qcabs (Hm t D))%Qc.
  Proof. unfold big, abs_lt. rewrite negb_true_iff. apply qlt_false. Qed.

  Section ONE.
    Variables (D : N) (G : in_space W n D).
    Lemma targets_In t : In t (targets D) <-> linked W h so D t.
    Proof.
      unfold targets, linked. rewrite !in_app_iff, !T1_In by auto. cbn [negb str].
      rewrite spin_moves_1, spin_moves_2. destruct so.
      - cbn [In]. split.
        + intros [(A & B & C)|[(A & B & C)|[]]]; split; auto; left; auto.
        + intros [A [[[B C]|[B C]]|[X _]]]; auto; discriminate.
      - rewrite !in_app_iff, !T2_In, TO_In by auto. cbn [negb str]. split.
        + intuition (auto 8).
        + intros [A [[[B C]|[B C]]|[_ [[B C]|[[B C]|[B C]]]]]]; auto 10.
    Qed.
    Lemma targets_NoDup : NoDup (targets D).
    Proof.
      set (ca := fun t => bs_count (N.lxor (alpha W t) (alpha W D))).
      set (cb := fun t => bs_count (N.lxor (beta W t) (beta W D))).
      assert (Z : forall x, bs_count (N.lxor x x) = 0).
      { intros x. apply size_is_count. exists []. split; [constructor|]. split; auto.
        intros i. rewrite N.lxor_nilpotent, tb_0. cbn [In]. split; [tauto|discriminate]. }
      assert (A1 : forall t, In t (T1 W h D false) -> ca t = 2 /\ cb t = 0).
      { intros t H. apply T1_In in H; auto. cbn [negb str] in H. destruct H as (_ & M & E). unfold ca, cb.
        rewrite E, Z, (count_xor_moves _ _ _ M). auto. }
      assert (A2 : forall t, In t (T1 W h D true) -> ca t = 0 /\ cb t = 2).
      { intros t H. apply T1_In in H; auto. cbn [negb str] in H. destruct H as (_ & M & E). unfold ca, cb.
        rewrite E, Z, (count_xor_moves _ _ _ M). auto. }
      assert (A3 : forall t, In t (T2 W h D false) -> ca t = 4 /\ cb t = 0).
      { intros t H. apply T2_In in H; auto. cbn [negb str] in H. destruct H as (_ & M & E). unfold ca, cb.
        rewrite E, Z, (count_xor_moves _ _ _ M). auto. }
      assert (A4 : forall t, In t (T2 W h D true) -> ca t = 0 /\ cb t = 4).
      { intros t H. apply T2_In in H; auto. cbn [negb str] in H. destruct H as (_ & M & E). unfold ca, cb.
        rewrite E, Z, (count_xor_moves _ _ _ M). auto. }
      assert (A5 : forall t, In t (TO W h D) -> ca t = 2 /\ cb t = 2).
      { intros t H. apply TO_In in H; auto. cbn [negb str] in H. destruct H as (_ & M & E). unfold ca, cb.
        rewrite (count_xor_moves _ _ _ E), (count_xor_moves _ _ _ M). auto. }
      unfold targets. apply NoDup_app; [apply T1_NoDup; auto| |].
      - apply NoDup_app; [apply T1_NoDup; auto| |].
        + destruct so; [constructor|]. apply NoDup_app; [apply T2_NoDup; auto| |].
          * apply NoDup_app; [apply T2_NoDup; auto|apply TO_NoDup; auto|].
            intros x H1 H2. apply A4 in H1. apply A5 in H2. lia.
          * intros x H1 H2. apply A3 in H1. apply in_app_iff in H2. destruct H2 as [H2|H2]; [apply A4 in H2|apply A5 in H2]; lia.
        + intros x H1 H2. apply A2 in H1. destruct so; [destruct H2|]. rewrite !in_app_iff in H2.
          destruct H2 as [H2|[H2|H2]]; [apply A3 in H2|apply A4 in H2|apply A5 in H2]; lia.
      - intros x H1 H2. apply A1 in H1. rewrite in_app_iff in H2. destruct H2 as [H2|H2]; [apply A2 in H2; lia|].
        destruct so; [destruct H2|]. rewrite !in_app_iff in H2.
        destruct H2 as [H2|[H2|H2]]; [apply A3 in H2|apply A4 in H2|apply A5 in H2]; lia.
    Qed.
    Lemma kept_In t : In t (kept D) <-> contributes W h tol so D t.
    Proof. unfold kept, contributes. rewrite filter_In, targets_In, big_spec. reflexivity. Qed.
    Lemma kept_NoDup : NoDup (kept D).
    Proof. apply NoDup_filter, targets_NoDup. Qed.

    Lemma diag_code : matrix_element W h D D = Ok (Hm D D).
    Proof.
      apply (c13 W h D D (bs_count (alpha W D)) (bs_count (beta W D))); auto; apply size_is_count; reflexivity.
    Qed.

    Definition resonant t : bool := big W h tol D t && bad W h E0 t.
    Lemma run_app c l1 l2 : run W h tol E0 c D (l1 ++ l2) =
      do x <- run W h tol E0 c D l1; do y <- run W h tol E0 c D l2; Ok (x ++ y).
    Proof.
      unfold run. rewrite existsb_app, filter_app, map_app.
      destruct (existsb _ l1), (existsb _ l2); reflexivity.
    Qed.
    Lemma det_run dbg c :
      (dbg = true -> bs_count (alpha W D) < n /\ bs_count (beta W D) < n) ->
      det_contributions dbg W h tol so E0 c D = run W h tol E0 c D (targets D).
    Proof.
      intros Hd. unfold det_contributions.
      rewrite <- alpha_lo, <- beta_hi by (auto; eapply in_space_wf; eauto).
      rewrite occ_vir_ok; [|auto|apply G|intros X; apply Hd; auto]. cbn [bind].
      rewrite occ_vir_ok; [|auto|apply G|intros X; apply Hd; auto]. cbn [bind].
      destruct (ens_ok W h Hn Vs D false G) as (ea & E1 & Ga). destruct (ens_ok W h Hn Vs D true G) as (eb & E2 & Gb).
      cbn [negb str] in E1, E2. rewrite E1. cbn [bind]. rewrite E2. cbn [bind].
      rewrite diag_code. cbn [bind].
      fold (virt n (alpha W D)) (virt n (beta W D)).
      pose proof (singles_loop W HW h Hn Vs tol E0 c D G false ea Ga) as L1.
      pose proof (singles_loop W HW h Hn Vs tol E0 c D G true eb Gb) as L2.
      pose proof (ss_loop W HW h Hn Vs tol E0 c D G false ea Ga) as L3.
      pose proof (ss_loop W HW h Hn Vs tol E0 c D G true eb Gb) as L4.
      pose proof (os_loop W HW h Hn Vs tol E0 c D G ea eb Ga Gb) as L5.
      cbn [negb str shift_of] in L1, L2, L3, L4, L5.
      rewrite L1, L2, L3, L4, L5. clear L1 L2 L3 L4 L5.
      unfold targets. rewrite !run_app. destruct so.
      - destruct (run _ _ _ _ _ _ (T1 W h D false)); cbn [bind]; auto.
        destruct (run _ _ _ _ _ _ (T1 W h D true)); cbn [bind]; auto.
        unfold run. cbn [existsb bind map filter]. rewrite app_nil_r. reflexivity.
      - rewrite !run_app.
        destruct (run _ _ _ _ _ _ (T1 W h D false)); cbn [bind]; auto.
        destruct (run _ _ _ _ _ _ (T1 W h D true)); cbn [bind]; auto.
        destruct (run _ _ _ _ _ _ (T2 W h D false)); cbn [bind]; auto.
        destruct (run _ _ _ _ _ _ (T2 W h D true)); cbn [bind]; auto.
        destruct (run _ _ _ _ _ _ (TO W h D)); cbn [bind]; auto.
    Qed.
    Lemma bad_spec t : bad W h E0 t = true <-> E0 = Hm t t.
    Proof.
      unfold bad. destruct (Qc_eq_dec (E0 - Hm t t)%Qc 0) as [E|E].
      - split; auto. intros _. replace E0 with (E0 - Hm t t + Hm t t)%Qc by ring. rewrite E. ring.
      - split; [discriminate|]. intros X. exfalso. apply E. rewrite <- X. ring.
    Qed.
    Lemma det_ok dbg c :
      (dbg = true -> bs_count (alpha W D) < n /\ bs_count (beta W D) < n) ->
      (forall t, contributes W h tol so D t -> E0 <> Hm t t) ->
      det_contributions dbg W h tol so E0 c D = Ok (contribs c D).
    Proof.
      intros Hd Hr. rewrite det_run by auto. unfold run.
      destruct (existsb _ (targets D)) eqn:E; [|reflexivity].
      apply existsb_exists in E. destruct E as (t & Ht & E). apply andb_prop in E. destruct E as [B E].
      exfalso. apply (Hr t); [|apply bad_spec, E]. split; [apply targets_In, Ht|apply big_spec, B].
    Qed.
    Lemma det_resonant dbg c t :
      (dbg = true -> bs_count (alpha W D) < n /\ bs_count (beta W D) < n) ->
      contributes W h tol so D t -> E0 = Hm t t ->
      det_contributions dbg W h tol so E0 c D = Err NonFinite.
    Proof.
      intros Hd [Ht B] Hr. rewrite det_run by auto. unfold run.
      destruct (existsb _ (targets D)) eqn:E; [reflexivity|]. exfalso. 
      enough (X : existsb (fun t => big W h tol D t && bad W h E0 t) (targets D) = true) by congruence.
      apply existsb_exists. exists t. split; [apply targets_In, Ht|].
      apply andb_true_intro. split; [apply big_spec, B|apply bad_spec, Hr].
    Qed.
    Lemma det_inv dbg c l :
      (dbg = true -> bs_count (alpha W D) < n /\ bs_count (beta W D) < n) ->
      det_contributions dbg W h tol so E0 c D = Ok l ->
      l = contribs c D.
    Proof.
      intros Hd H. rewrite det_run in H by auto. unfold run in H.
      destruct (existsb _ (targets D)); [discriminate|]. injection H as <-. reflexivity.
    Qed.
  End ONE.
End DET.

(** C51 *)
Lemma c51 dbg W h tol so E0 c D :
  spin_width W -> norb h <= W / 2 ->
  (forall p q r s, p < norb h -> q < norb h -> r < norb h -> s < norb h ->
     V_pqrs h p q r s = V_pqrs h r s p q) ->
  in_space W (norb h) D ->
  (dbg = true -> bs_count (alpha W D) < norb h /\ bs_count (beta W D) < norb h) ->
  (forall t, contributes W h tol so D t -> E0 <> ham W (norb h) (T_pq h) (V_pqrs h) t t) ->
  exists l, det_contributions dbg W h tol so E0 c D = Ok l /\ NoDup (map fst l) /\
    forall t x, In (t, x) l <-> contributes W h tol so D t /\ x = pt_coeff W h E0 c D t.
Proof.
  intros HW Hn Vs G Hd Hr. exists (contribs W h tol E0 so c D). split; [apply det_ok; auto|]. split.
  - unfold contribs. rewrite map_map. cbn [fst]. rewrite map_id. apply kept_NoDup; auto.
  - intros t x. unfold contribs. rewrite in_map_iff. split.
    + intros (u & E & Hu). injection E as -> <-. apply kept_In in Hu; auto.
    + intros [A ->]. exists t. split; auto. apply kept_In; auto.
Qed.

(** The constraint-based search on one rank. *)
From Coq Require Import QArith Qcanon Sorting.Permutation Sorting.Sorted.
From Verif Require Import Base Nondet Bits BitsProofs SD Spec SDProofs SDProofs2 SDProofs3 SDProofs4 SDProofs5 Sums
  FockSpec FockProofs SlaterCondon Ham
  HamProofs HamProofs2 HamProofs3 HamProofs4 HamProofs5 HamProofs6 HamProofs7 HamProofs8 PropsHamGlue
  Asci AsciSpec AsciSort AsciContrib AsciContrib2 AsciSearch AsciSearch2 AsciSearch3
  Constraint ConstraintSpec ConstraintProofs ConstraintProofs2 ConstraintProofs3 ConstraintDist ConstraintContrib.
Local Open Scope nat_scope.

Section ONE.
  Variables (W : nat) (HW : spin_width W) (h : ints).
  Notation n := (norb h).
  Hypothesis Hn : n <= W / 2.
  Hypothesis Vs : forall p q r s, p < n -> q < n -> r < n -> s < n ->
     V_pqrs h p q r s = V_pqrs h r s p q.
  Notation Hm := (ham W n (T_pq h) (V_pqrs h)).
  Variables (tol E0 : Qc).
  Notation cT1 := (cT1 W h). Notation cT2 := (cT2 W). Notation cTO := (cTO W h).
  Notation bigc := (bigc W h tol).

  Section DET.
    Variables (c : Qc) (D : N) (G : in_space W n D) (con : constraint) (Hc : valid_con n con).
    Notation al := (str W false D).

    Lemma cT1_In t : In t (cT1 D con) <-> In t (T1 W h D false) /\ meets con (alpha W t).
    Proof.
      unfold ConstraintContrib.cT1, T1. rewrite !in_map_iff. split.
      - intros ([i a] & <- & H). apply in_prod_iff in H. destruct H as [Hi Ha]. apply in_rev in Hi, Ha. cbn [fst snd].
        destruct (co_In W HW h Hn D G con Hc i a Hi Ha) as (Li & La & Ti & Ta & M). split.
        + exists (i, a). split; auto. apply in_prod_iff. split; [apply positions_In; auto|apply virt_In; auto].
        + change (alpha W) with (str W false). destruct (ex1_str W h Hn D false i a Li La) as [-> _]. exact M.
      - intros [([i a] & <- & H) M]. apply in_prod_iff in H. destruct H as [Hi Ha]. cbn [fst snd] in *.
        apply positions_In in Hi. apply virt_In in Ha. destruct Hi as [Li Ti], Ha as [La Ta].
        change (alpha W) with (str W false) in M. rewrite (proj1 (ex1_str W h Hn D false i a Li La)) in M.
        exists (i, a). split; auto. apply in_prod_iff. rewrite <- !in_rev.
        apply (con_single_In W n con al (nW W HW h Hn) (spin_width_64 W HW) Hc (proj1 G)). auto.
    Qed.
    Lemma cT2_In t : In t (cT2 D con) <-> In t (T2 W h D false) /\ meets con (alpha W t).
    Proof.
      unfold ConstraintContrib.cT2, T2. rewrite !in_map_iff. split.
      - intros ([[i j] [a b]] & <- & H). apply in_prod_iff in H. destruct H as [H1 H2].
        destruct (dOV_In W HW h Hn D G con Hc i j a b H1 H2) as (((Li & Lj) & La & Lb) & (Ti & Tj & Lij) & (Ta & Tb & Lab) & M).
        split.
        + exists (i, a, j, b). split; auto. apply ss_quads_In; [apply positions_sorted|apply virt_sorted|].
          rewrite !positions_In, !virt_In. auto 8.
        + change (alpha W) with (str W false). destruct (ex2_str W h Hn D false i a j b Li La Lj Lb) as [-> _]. exact M.
      - intros [([[[i a] j] b] & <- & H) M]. apply ss_quads_In in H; [|apply positions_sorted|apply virt_sorted].
        rewrite !positions_In, !virt_In in H. destruct H as (((Li & Ti) & (Lj & Tj) & Lij) & (La & Ta) & (Lb & Tb) & Lab).
        change (alpha W) with (str W false) in M. rewrite (proj1 (ex2_str W h Hn D false i a j b Li La Lj Lb)) in M.
        exists ((i, j), (a, b)). split; auto. apply in_prod_iff.
        apply (con_double_In W n con al (nW W HW h Hn) (spin_width_64 W HW) Hc (proj1 G)). auto 12.
    Qed.
    Lemma cTO_In t : In t (cTO D con) <-> In t (TO W h D) /\ meets con (alpha W t).
    Proof.
      unfold ConstraintContrib.cTO, TO. rewrite !in_map_iff. split.
      - intros ([[i a] [j b]] & <- & H). apply in_prod_iff in H. destruct H as [H1 H2]. apply in_prod_iff in H1.
        destruct H1 as [Hi Ha]. apply in_rev in Hi, Ha. cbn [fst snd].
        destruct (co_In W HW h Hn D G con Hc i a Hi Ha) as (Li & La & Ti & Ta & M). apply in_prod_iff in H2.
        destruct H2 as [Hj Hb]. split.
        + exists ((i, a), (j, b)). split; auto. apply in_prod_iff. split; apply in_prod_iff; auto.
          split; [apply positions_In; auto|apply virt_In; auto].
        + apply positions_In in Hj. apply virt_In in Hb. change (alpha W) with (str W false).
          destruct (exo_str W h Hn D i a j b Li La (proj1 Hj) (proj1 Hb)) as [-> _]. exact M.
      - intros [([[i a] [j b]] & <- & H) M]. apply in_prod_iff in H. destruct H as [H1 H2].
        apply in_prod_iff in H1, H2. destruct H1 as [Hi Ha], H2 as [Hj Hb]. cbn [fst snd] in *.
        pose proof Hj as Hj'. pose proof Hb as Hb'.
        apply positions_In in Hi, Hj. apply virt_In in Ha, Hb. destruct Hi as [Li Ti], Ha as [La Ta].
        change (alpha W) with (str W false) in M. rewrite (proj1 (exo_str W h Hn D i a j b Li La (proj1 Hj) (proj1 Hb))) in M.
        exists ((i, a), (j, b)). split; auto. apply in_prod_iff. split; apply in_prod_iff; auto. rewrite <- !in_rev.
        apply (con_single_In W n con al (nW W HW h Hn) (spin_width_64 W HW) Hc (proj1 G)). auto.
    Qed.

    Definition ckept : list N := filter (bigc c D) (cT1 D con) ++ filter (bigc c D) (cT2 D con) ++ filter (bigc c D) (cTO D con) ++
      (if sat al con then filter (big W h tol D) (T1 W h D true) ++ filter (big W h tol D) (T2 W h D true) else []).
    Lemma same_alpha t : moves 0 al (str W false t) -> (alpha W t =? alpha W D)%N = true.
    Proof. intros H. apply moves_0 in H. cbn [str] in H. rewrite H. apply N.eqb_refl. Qed.
    Lemma diff_alpha k t : 0 < k -> moves k al (str W false t) -> (alpha W t =? alpha W D)%N = false.
    Proof.
      intros Hk M. destruct (N.eqb_spec (alpha W t) (alpha W D)) as [E|E]; auto. cbn [str] in M. rewrite E in M.
      destruct M as [M _]. apply size_is_count in M. rewrite N.ldiff_diag in M. cbn in M. lia.
    Qed.
    Lemma bigc_spec t : bigc c D t = true <-> (tol <= Qcabs (c * Hm t D))%Qc.
    Proof. unfold ConstraintContrib.bigc, abs_lt. rewrite negb_true_iff. apply qlt_false. Qed.
    Lemma ckept_In t : In t ckept <-> contributes_c W h tol c D t /\ meets con (alpha W t).
    Proof.
      unfold ckept, contributes_c. rewrite <- (targets_In W h Hn false D G). unfold targets.
      rewrite !in_app_iff, !filter_In, cT1_In, cT2_In, cTO_In, bigc_spec.
      assert (A1 : In t (T1 W h D false) -> (alpha W t =? alpha W D)%N = false).
      { intros H. apply T1_In in H; auto. apply (diff_alpha 1); auto. tauto. }
      assert (A2 : In t (T2 W h D false) -> (alpha W t =? alpha W D)%N = false).
      { intros H. apply T2_In in H; auto. apply (diff_alpha 2); auto. tauto. }
      assert (A3 : In t (TO W h D) -> (alpha W t =? alpha W D)%N = false).
      { intros H. apply TO_In in H; auto. apply (diff_alpha 1); auto. tauto. }
      assert (A4 : In t (T1 W h D true) -> alpha W t = alpha W D).
      { intros H. apply T1_In in H; auto. cbn [negb str] in H. tauto. }
      assert (A5 : In t (T2 W h D true) -> alpha W t = alpha W D).
      { intros H. apply T2_In in H; auto. cbn [negb str] in H. tauto. }
      assert (SA : sat al con = true <-> meets con (alpha W D)) by (apply (sat_ok n); auto).
      split.
      - intros [[[H1 H2] H3]|[[[H1 H2] H3]|[[[H1 H2] H3]|H]]].
        + rewrite A1 by auto. tauto.
        + rewrite A2 by auto. tauto.
        + rewrite A3 by auto. tauto.
        + destruct (sat al con) eqn:E; [|destruct H]. rewrite in_app_iff, !filter_In, big_spec in H.
          destruct H as [[H1 H2]|[H1 H2]]; [pose proof (A4 H1) as EA|pose proof (A5 H1) as EA]; rewrite EA, N.eqb_refl; tauto.
      - intros [[H1 H2] M]. destruct H1 as [H1|[H1|[H1|[H1|H1]]]].
        + rewrite A1 in H2 by auto. tauto.
        + pose proof (A4 H1) as EA. rewrite EA, N.eqb_refl in H2. rewrite EA in M. apply SA in M. rewrite M.
          rewrite in_app_iff, !filter_In, big_spec. tauto.
        + rewrite A2 in H2 by auto. tauto.
        + pose proof (A5 H1) as EA. rewrite EA, N.eqb_refl in H2. rewrite EA in M. apply SA in M. rewrite M.
          rewrite in_app_iff, !filter_In, big_spec. tauto.
        + rewrite A3 in H2 by auto. tauto.
    Qed.
    Lemma rev_NoDup' {A} (l : list A) : NoDup l -> NoDup (rev l).
    Proof. apply NoDup_rev. Qed.
    Lemma cT1_NoDup : NoDup (cT1 D con).
    Proof.
      apply NoDup_map_inj; [|apply NoDup_prod; apply NoDup_rev; apply positions_NoDup].
      intros [i a] [i' a'] H H' E. apply in_prod_iff in H, H'. cbn [fst snd] in *. rewrite <- !in_rev in H, H'.
      destruct (co_In W HW h Hn D G con Hc i a (proj1 H) (proj2 H)) as (? & ? & ? & ? & _).
      destruct (co_In W HW h Hn D G con Hc i' a' (proj1 H') (proj2 H')) as (? & ? & ? & ? & _).
      destruct (ex1_str W h Hn D false i a) as [A _]; try tauto. destruct (ex1_str W h Hn D false i' a') as [B _]; try tauto.
      rewrite E, B in A. symmetry in A. apply flip2_inj in A; try tauto. destruct A. congruence.
    Qed.
    Lemma cT2_NoDup : NoDup (cT2 D con).
    Proof.
      apply NoDup_map_inj; [|apply NoDup_prod; [apply dO_NoDup|apply dV_NoDup]].
      intros [[i j] [a b]] [[i' j'] [a' b']] H H' E. apply in_prod_iff in H, H'.
      destruct (dOV_In W HW h Hn D G con Hc i j a b (proj1 H) (proj2 H)) as (((? & ?) & ? & ?) & (? & ? & ?) & (? & ? & ?) & _).
      destruct (dOV_In W HW h Hn D G con Hc i' j' a' b' (proj1 H') (proj2 H')) as (((? & ?) & ? & ?) & (? & ? & ?) & (? & ? & ?) & _).
      destruct (ex2_str W h Hn D false i a j b) as [A _]; try tauto.
      destruct (ex2_str W h Hn D false i' a' j' b') as [B _]; try tauto.
      rewrite E, B in A. symmetry in A. apply flip4_inj in A; try tauto. congruence.
    Qed.
    Lemma cTO_NoDup : NoDup (cTO D con).
    Proof.
      apply NoDup_map_inj; [|apply NoDup_prod; apply NoDup_prod; try apply NoDup_rev; try apply positions_NoDup; apply NoDup_filter, seq_NoDup].
      intros [[i a] [j b]] [[i' a'] [j' b']] H H' E. apply in_prod_iff in H, H'. cbn [fst snd] in *.
      destruct H as [H1 H2], H' as [H3 H4]. apply in_prod_iff in H1, H2, H3, H4. rewrite <- !in_rev in H1, H3.
      destruct (co_In W HW h Hn D G con Hc i a (proj1 H1) (proj2 H1)) as (? & ? & ? & ? & _).
      destruct (co_In W HW h Hn D G con Hc i' a' (proj1 H3) (proj2 H3)) as (? & ? & ? & ? & _).
      destruct H2 as [Hj Hb], H4 as [Hj' Hb']. apply positions_In in Hj, Hj'. apply virt_In in Hb, Hb'.
      destruct (exo_str W h Hn D i a j b) as [A1 A2]; try tauto.
      destruct (exo_str W h Hn D i' a' j' b') as [B1 B2]; try tauto.
      rewrite E, B1 in A1. rewrite E, B2 in A2. symmetry in A1, A2.
      apply flip2_inj in A1; try tauto. apply flip2_inj in A2; try tauto. destruct A1, A2. congruence.
    Qed.
    Lemma nda (l1 l2 : list N) : NoDup (l1 ++ l2) -> NoDup l2.
    Proof. clear. induction l1 as [|x l1 IH]; cbn [app]; auto. inversion 1; auto. Qed.
    Lemma ckept_NoDup : NoDup ckept.
    Proof.
      pose proof (targets_NoDup W h Hn false D G) as TN. unfold targets in TN.
      assert (DJ : forall (l1 l2 : list N), NoDup (l1 ++ l2) -> forall x, In x l1 -> ~ In x l2).
      { clear. induction l1 as [|y l1 IH]; cbn [app]; intros l2 H x Hx; [destruct Hx|]. inversion H; subst.
        destruct Hx as [<-|Hx]; [|apply IH; auto]. intros X. apply H2. apply in_or_app. auto. }
      pose proof (DJ _ _ TN) as D1. apply nda in TN.
      pose proof (DJ _ _ TN) as D2. apply nda in TN.
      pose proof (DJ _ _ TN) as D3. apply nda in TN.
      pose proof (DJ _ _ TN) as D4. clear DJ TN.
      assert (F : forall (P : N -> bool) l x, In x (filter P l) -> In x l) by (intros P l x Hx; apply filter_In in Hx; tauto).
      unfold ckept. apply NoDup_app; [apply NoDup_filter, cT1_NoDup| |].
      - apply NoDup_app; [apply NoDup_filter, cT2_NoDup| |].
        + apply NoDup_app; [apply NoDup_filter, cTO_NoDup| |].
          * destruct (sat al con); [|constructor]. apply NoDup_app; try (apply NoDup_filter); [apply T1_NoDup; auto|apply T2_NoDup; auto|].
            intros x H1 H2. apply F in H1, H2. apply (D2 x H1). rewrite !in_app_iff. auto.
          * intros x H1 H2. apply F in H1. apply cTO_In in H1. destruct H1 as [H1 _].
            destruct (sat al con); [|destruct H2]. apply in_app_or in H2. destruct H2 as [H2|H2]; apply F in H2.
            { apply (D2 x H2). rewrite !in_app_iff. auto. }
            { apply (D4 x H2). auto. }
        + intros x H1 H2. apply F in H1. apply cT2_In in H1. destruct H1 as [H1 _].
          apply in_app_or in H2. destruct H2 as [H2|H2].
          * apply F in H2. apply cTO_In in H2. apply (D3 x H1). apply in_or_app. tauto.
          * destruct (sat al con); [|destruct H2]. apply in_app_or in H2. destruct H2 as [H2|H2]; apply F in H2.
            { apply (D2 x H2). rewrite !in_app_iff. auto. }
            { apply (D3 x H1). apply in_or_app. auto. }
      - intros x H1 H2. apply F in H1. apply cT1_In in H1. destruct H1 as [H1 _].
        apply (D1 x H1). rewrite !in_app_iff in *. destruct H2 as [H2|[H2|H2]].
        + apply F in H2. apply cT2_In in H2. tauto.
        + apply F in H2. apply cTO_In in H2. tauto.
        + destruct (sat al con); [|destruct H2]. apply in_app_or in H2. destruct H2 as [H2|H2]; apply F in H2; auto.
    Qed.
    Definition ccontribs : list contrib := map (fun t => (t, pt_coeff W h E0 c D t)) ckept.
  End DET.
End ONE.

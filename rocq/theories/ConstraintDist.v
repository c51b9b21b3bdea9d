(** Proofs about dist_constraint_general. *)
From Coq Require Import Sorting.Permutation Sorting.Sorted.
From Verif Require Import Base Nondet Bits BitsProofs SD Spec SDProofs SDProofs2 SDProofs3 Ham Asci AsciContrib AsciContrib2
  Constraint ConstraintSpec ConstraintProofs ConstraintProofs2 ConstraintProofs3.
Local Open Scope nat_scope.

(** ** how many constraints of a list a string meets *)
Definition sat (x : N) (c : constraint) : bool := satisfies_constraint x (con_C c) (con_min c).
Fixpoint nm (x : N) (cs : list constraint) : nat :=
  match cs with [] => 0 | c :: r => (if sat x c then 1 else 0) + nm x r end.
Lemma nm_app x l1 l2 : nm x (l1 ++ l2) = nm x l1 + nm x l2.
Proof. induction l1 as [|c r IH]; cbn [nm app]; auto. rewrite IH. lia. Qed.
Lemma nm_perm x l1 l2 : Permutation l1 l2 -> nm x l1 = nm x l2.
Proof. induction 1; cbn [nm]; repeat match goal with |- context [sat x ?c] => destruct (sat x c) end; lia. Qed.
Lemma nm_0 x l : nm x l = 0 <-> forall c, In c l -> sat x c = false.
Proof.
  induction l as [|c r IH]; cbn [nm]; [split; auto; intros _ c []|]. split.
  - intros H d [<-|Hd]; [destruct (sat x c); auto; discriminate|]. apply IH; auto. destruct (sat x c); lia.
  - intros H. rewrite (H c) by (left; auto). cbn. apply IH. intros d Hd. apply H. right; auto.
Qed.
Lemma nm_1 x l : nm x l = 1 -> exists l1 c l2, l = l1 ++ c :: l2 /\ sat x c = true /\ forall c', In c' (l1 ++ l2) -> sat x c' = false.
Proof.
  induction l as [|c r IH]; cbn [nm]; [discriminate|]. destruct (sat x c) eqn:E.
  - intros H. exists [], c, r. split; auto. split; auto. apply (nm_0 x r). lia.
  - intros H. destruct IH as (l1 & d & l2 & -> & S1 & S2); [exact H|]. exists (c :: l1), d, l2. split; auto. split; auto.
    intros c' [<-|H']; auto.
Qed.
Lemma nm_inj {A} x (f : A -> constraint) l : NoDup l ->
  (forall a b, In a l -> In b l -> sat x (f a) = true -> sat x (f b) = true -> a = b) -> nm x (map f l) <= 1.
Proof.
  induction 1 as [|a l Ha Nd IH]; intros H; cbn [map nm]; auto. destruct (sat x (f a)) eqn:E.
  - replace (nm x (map f l)) with 0; auto. symmetry. apply nm_0. intros c Hc. apply in_map_iff in Hc.
    destruct Hc as (b & <- & Hb). destruct (sat x (f b)) eqn:E2; auto. exfalso. apply Ha.
    rewrite (H a b); auto; [left; auto|right; auto].
  - apply IH. intros; apply H; auto; right; auto.
Qed.
Lemma nm_ge x l c : In c l -> sat x c = true -> 1 <= nm x l.
Proof.
  induction l as [|d r IH]; intros [] Hs; cbn [nm].
  - subst d. rewrite Hs. lia.
  - specialize (IH H Hs). lia.
Qed.

Section LV.
  Variables (norb : nat).
  Lemma sat_ok c x : valid_con norb c -> sat x c = true <-> meets c x.
  Proof. apply satisfies_ok. Qed.

  (** triplets *)
  Lemma triplets_In i j k : In (i, j, k) (triplets norb) <-> k < j /\ j < i /\ i < norb.
  Proof.
    unfold triplets. rewrite in_flat_map. split.
    - intros (i' & Hi & H). apply in_flat_map in H. destruct H as (j' & Hj & H). apply in_map_iff in H.
      destruct H as (k' & [= -> -> ->] & Hk). apply in_seq in Hi, Hj, Hk. lia.
    - intros (H1 & H2 & H3). exists i. split; [apply in_seq; lia|]. apply in_flat_map. exists j.
      split; [apply in_seq; lia|]. apply in_map, in_seq. lia.
  Qed.
  Lemma triplets_NoDup : NoDup (triplets norb).
  Proof.
    unfold triplets. apply NoDup_flat_map; [apply seq_NoDup| |].
    - intros i _. apply NoDup_flat_map; [apply seq_NoDup| |].
      + intros j _. apply NoDup_map_inj; [|apply seq_NoDup]. intros; congruence.
      + intros j j' x _ _ H1 H2. apply in_map_iff in H1, H2. destruct H1 as (? & <- & _), H2 as (? & E & _). congruence.
    - intros i i' x _ _ H1 H2. apply in_flat_map in H1, H2. destruct H1 as (? & _ & H1), H2 as (? & _ & H2).
      apply in_map_iff in H1, H2. destruct H1 as (? & <- & _), H2 as (? & E & _). congruence.
  Qed.
  Definition trip (t : nat * nat * nat) : constraint := let '(i, j, k) := t in con_of [i; j; k] k.
  Lemma trip_valid t : In t (triplets norb) -> valid_con norb (trip t).
  Proof.
    destruct t as [[i j] k]. intros H. apply triplets_In in H. apply (con_of_valid norb [i; j] k).
    - cbn. repeat (constructor; [cbn; intuition lia|]). constructor.
    - auto.
    - cbn. intuition lia.
    - cbn. intuition lia.
  Qed.
  Lemma tb_trip i j k z : k < j -> j < i -> tb (con_C (con_of [i; j; k] k)) z = (z =? i) || (z =? j) || (z =? k).
  Proof.
    intros. unfold con_of. cbn [con_C]. rewrite tb_fold_flip; [|repeat (constructor; [cbn; intuition lia|]); constructor|auto using tb_0].
    rewrite tb_0. cbn [existsb orb]. rewrite orb_false_r, orb_assoc. reflexivity.
  Qed.
  Lemma trip_le x : nm x (map trip (triplets norb)) <= 1.
  Proof.
    apply nm_inj; [apply triplets_NoDup|]. intros [[i j] k] [[i' j'] k'] H H' E E'.
    apply sat_ok in E; [|apply trip_valid, H]. apply sat_ok in E'; [|apply trip_valid, H'].
    apply triplets_In in H, H'. cbn [trip] in E, E'. unfold meets in *.
    assert (EE : forall z, k <= z -> k' <= z -> (z =? i) || (z =? j) || (z =? k) = (z =? i') || (z =? j') || (z =? k')).
    { intros z Z1 Z2. rewrite <- !tb_trip by lia. rewrite <- E, <- E'; auto. }
    destruct (Nat.le_ge_cases k k') as [L|L].
    - pose proof (EE k' ltac:(lia) ltac:(lia)). pose proof (EE j' ltac:(lia) ltac:(lia)). pose proof (EE i' ltac:(lia) ltac:(lia)).
      repeat match goal with H : context [?a =? ?b] |- _ => destruct (Nat.eqb_spec a b); try lia; cbn [orb] in H; try discriminate H end;
      f_equal; try f_equal; lia.
    - pose proof (EE k ltac:(lia) ltac:(lia)). pose proof (EE j ltac:(lia) ltac:(lia)). pose proof (EE i ltac:(lia) ltac:(lia)).
      repeat match goal with H : context [?a =? ?b] |- _ => destruct (Nat.eqb_spec a b); try lia; cbn [orb] in H; try discriminate H end;
      f_equal; try f_equal; lia.
  Qed.
  Lemma sorted_last l a b : StronglySorted lt (l ++ b) -> In a l -> forall z, In z b -> a < z.
  Proof.
    induction l as [|y l IH]; cbn [app]; [intros _ []|]. intros HS [<-|Ha] z Hz; inversion HS as [|? ? H1 H2]; subst.
    - rewrite Forall_forall in H2. apply H2, in_or_app. auto.
    - apply IH; auto.
  Qed.
  Lemma trip_ge x : wf norb x -> 3 <= bs_count x -> nm x (map trip (triplets norb)) = 1.
  Proof.
    intros Wx Hx. rewrite (count_positions norb) in Hx by auto. pose proof (positions_sorted norb x) as PS.
    destruct (rev (positions norb x)) as [|i [|j [|k r]]] eqn:ER;
      try (rewrite <- rev_length, ER in Hx; cbn in Hx; lia).
    assert (EP : positions norb x = rev r ++ [k; j; i]).
    { rewrite <- (rev_involutive (positions norb x)), ER. cbn [rev]. rewrite <- !app_assoc. reflexivity. }
    rewrite EP in PS.
    assert (Lkj : k < j /\ j < i).
    { assert (SS : StronglySorted lt [k; j; i]).
      { clear - PS. induction (rev r) as [|y l IH]; cbn [app] in PS; auto. inversion PS; auto. }
      inversion SS as [|? ? A1 A2]; subst. inversion A1 as [|? ? A3 A4]; subst. inversion A2; inversion A4; subst. auto. }
    assert (T : forall z, k <= z -> tb x z = (z =? i) || (z =? j) || (z =? k)).
    { intros z Lz. destruct (tb x z) eqn:E.
      - apply (positions_In' norb) in E; auto. rewrite EP in E. apply in_app_or in E. destruct E as [E|E].
        + pose proof (sorted_last _ _ _ PS E k ltac:(left; auto)). lia.
        + symmetry. cbn [In] in E. rewrite !orb_true_iff, !Nat.eqb_eq. lia.
      - symmetry. destruct (_ || _) eqn:X; auto. rewrite !orb_true_iff, !Nat.eqb_eq in X.
        assert (IZ : In z (positions norb x)) by (rewrite EP; apply in_or_app; right; cbn [In]; lia).
        apply positions_In' in IZ; auto. congruence. }
    assert (Ii : i < norb).
    { assert (IZ : In i (positions norb x)) by (rewrite EP; apply in_or_app; right; cbn [In]; auto). apply positions_In in IZ. tauto. }
    assert (IT : In (i, j, k) (triplets norb)) by (apply triplets_In; lia).
    assert (Q : 1 <= nm x (map trip (triplets norb))).
    { apply (nm_ge x _ (trip (i, j, k))); [apply in_map, IT|]. apply sat_ok; [apply trip_valid, IT|].
      intros z Hz. cbn [trip con_min con_of] in Hz. cbn [trip]. rewrite tb_trip by lia. apply T, Hz. }
    pose proof (trip_le x). lia.
  Qed.

  (** children *)
  Definition child (c : constraint) (q : nat) : constraint :=
    mk_con (flipb (con_C c) q) (bs_shr (con_B c) (con_min c - q)) q.
  Lemma children_ok W c : norb <= W -> valid_con norb c -> con_children W c = Ok (map (child c) (seq 0 (con_min c))).
  Proof.
    intros HW Hc. unfold con_children. apply mapM_ok. intros q Hq. apply in_seq in Hq.
    pose proof (m_norb norb c Hc). unfold bs_flip. destruct (Nat.ltb_spec q W); [reflexivity|lia].
  Qed.
  Lemma tb_child c q z : tb (con_C (child c q)) z = xorb (tb (con_C c) z) (z =? q).
  Proof. unfold child. cbn [con_C]. apply tb_flip. Qed.
  Lemma child_count c q : valid_con norb c -> q < con_min c -> bs_count (con_C (child c q)) = S (bs_count (con_C c)).
  Proof.
    intros Hc Hq. rewrite (count_split (con_C (child c q)) (flipb 0 q) (con_C c)).
    - replace (bs_count (flipb 0 q)) with 1; auto. symmetry. apply count_1. exists q. intros k. rewrite tb_flip, tb_0. apply xorb_false_l.
    - intros k. rewrite tb_child, tb_flip, tb_0, xorb_false_l. destruct (Nat.eqb_spec k q) as [->|]; [|rewrite xorb_false_r; auto].
      rewrite (C_low norb c Hc) by auto. reflexivity.
    - intros k. rewrite tb_flip, tb_0, xorb_false_l. intros E. apply Nat.eqb_eq in E. subst k. apply (C_low norb c Hc), Hq.
  Qed.
  Lemma child_valid c q : valid_con norb c -> q < con_min c -> valid_con norb (child c q).
  Proof.
    intros Hc Hq. pose proof Hc as (Wc & Hm & Hl & HB & k & K3 & Sk). pose proof (m_norb norb c Hc).
    split; [|split; [|split; [|split]]].
    - intros z Hz. rewrite tb_child, (Wc z Hz). destruct (Nat.eqb_spec z q); [lia|reflexivity].
    - cbn [con_min child]. rewrite tb_child, Nat.eqb_refl, Hl by auto. reflexivity.
    - cbn [con_min child]. intros z Hz. rewrite tb_child, Hl by lia. destruct (Nat.eqb_spec z q); [lia|reflexivity].
    - intros z. cbn [con_B child con_min]. rewrite tb_bs_shr. rewrite HB. lia.
    - exists (S k). split; [lia|]. apply size_is_count. apply size_is_count in Sk. rewrite child_count by auto. lia.
  Qed.
  Lemma child_meets c q x : valid_con norb c -> q < con_min c -> meets (child c q) x <->
    meets c x /\ tb x q = true /\ forall z, q < z -> z < con_min c -> tb x z = false.
  Proof.
    intros Hc Hq. unfold meets. cbn [con_min child]. split.
    - intros H. assert (H' : forall z, q <= z -> tb x z = xorb (tb (con_C c) z) (z =? q)) by (intros z Hz; rewrite <- tb_child; auto).
      split; [|split].
      + intros z Hz. rewrite H' by lia. destruct (Nat.eqb_spec z q); [lia|apply xorb_false_r].
      + rewrite H', Nat.eqb_refl, (C_low norb c Hc) by auto. reflexivity.
      + intros z L1 L2. rewrite H', (C_low norb c Hc) by lia. destruct (Nat.eqb_spec z q); [lia|reflexivity].
    - intros (H1 & H2 & H3) z Hz. change (tb x z = tb (con_C (child c q)) z). rewrite tb_child.
      destruct (Nat.eqb_spec z q) as [->|Ne]; [rewrite H2, (C_low norb c Hc) by auto; reflexivity|]. rewrite xorb_false_r.
      destruct (Nat.lt_ge_cases z (con_min c)) as [L|L]; [rewrite H3, (C_low norb c Hc) by lia; reflexivity|auto].
  Qed.
  Lemma children_le c x : valid_con norb c -> nm x (map (child c) (seq 0 (con_min c))) <= nm x [c].
  Proof.
    intros Hc. cbn [nm]. rewrite Nat.add_0_r. destruct (sat x c) eqn:E.
    - apply nm_inj; [apply seq_NoDup|]. intros q q' Hq Hq' E1 E2. apply in_seq in Hq, Hq'.
      apply sat_ok in E1; [|apply child_valid; auto; lia]. apply sat_ok in E2; [|apply child_valid; auto; lia].
      apply child_meets in E1; auto; try lia. apply child_meets in E2; auto; try lia.
      destruct E1 as (_ & A1 & A2), E2 as (_ & B1 & B2).
      destruct (Nat.lt_trichotomy q q') as [L|[L|L]]; auto.
      + rewrite A2 in B1 by lia. discriminate.
      + rewrite B2 in A1 by lia. discriminate.
    - replace (nm x _) with 0; auto. symmetry. apply nm_0. intros d Hd. apply in_map_iff in Hd. destruct Hd as (q & <- & Hq).
      apply in_seq in Hq. destruct (sat x (child c q)) eqn:X; auto. apply sat_ok in X; [|apply child_valid; auto; lia].
      apply child_meets in X; auto; try lia. destruct X as [X _]. apply sat_ok in X; auto. congruence.
  Qed.
  Lemma children_eq c x : valid_con norb c -> bs_count (con_C c) < bs_count x -> nm x (map (child c) (seq 0 (con_min c))) = nm x [c].
  Proof.
    intros Hc Hx. pose proof (children_le c x Hc) as LE. cbn [nm] in *. rewrite Nat.add_0_r in *.
    destruct (sat x c) eqn:E; [|lia]. apply sat_ok in E; auto.
    set (lo := N.land x (con_B c)).
    assert (TB : forall z, tb (con_B c) z = (z <? con_min c)).
    { destruct Hc as (_ & _ & _ & HB & _). intros z. destruct (Nat.ltb_spec z (con_min c)) as [L|L]; [apply HB, L|].
      destruct (tb (con_B c) z) eqn:Z; auto. apply HB in Z. lia. }
    assert (SP : bs_count x = bs_count lo + bs_count (con_C c)).
    { apply count_split; intros z; unfold lo; rewrite tb_and, TB.
      - destruct (Nat.ltb_spec z (con_min c)) as [L|L].
        + rewrite (C_low norb c Hc) by auto. rewrite andb_true_r, orb_false_r. reflexivity.
        + rewrite (E z L), andb_false_r. reflexivity.
      - destruct (Nat.ltb_spec z (con_min c)) as [L|L]; [intros _; apply (C_low norb c Hc); auto|rewrite andb_false_r; discriminate]. }
    assert (NZ : lo <> 0%N) by (intros X; rewrite X in SP; cbn in SP; lia).
    destruct (high_exists (con_min c) lo) as (q & Lq & Tq & Hq); auto.
    { intros z Hz. unfold lo. rewrite tb_and, TB. destruct (Nat.ltb_spec z (con_min c)); [lia|apply andb_false_r]. }
    assert (1 <= nm x (map (child c) (seq 0 (con_min c)))).
    { apply (nm_ge x _ (child c q)); [apply in_map, in_seq; lia|]. apply sat_ok; [apply child_valid; auto|].
      apply child_meets; auto. split; auto. split.
      - unfold lo in Tq. rewrite tb_and in Tq. apply andb_prop in Tq. tauto.
      - intros z L1 L2. specialize (Hq z L1). unfold lo in Hq. rewrite tb_and, TB in Hq.
        destruct (Nat.ltb_spec z (con_min c)); [|lia]. rewrite andb_true_r in Hq. exact Hq. }
    lia.
  Qed.

  (** work *)
  Variables (W ns nd : nat) (alphas : list N).
  Hypothesis HW : norb <= W.
  Hypothesis H64 : (N.of_nat W < 2 ^ 64)%N.
  Hypothesis Ha : forall al, In al alphas -> wf norb al.

  Definition hist (c : constraint) (al : N) : nat :=
    let s := length (gen1 W norb c al) in
    s + length (gen2 W c al) + s * ns + (if sat al c then ns + nd + 1 else 0).
  Definition work (c : constraint) : nat := list_sum (map (hist c) alphas).
  Lemma hist_ok c al : valid_con norb c -> wf norb al ->
    constraint_histogram W al ns nd (con_C c) (mask W norb) (con_B c) = Ok (hist c al).
  Proof.
    intros Hc Hal. unfold constraint_histogram. rewrite (single_counts W norb), (double_counts W norb) by auto.
    rewrite (ffs_m1_low UB W (con_C c) (con_min c)); [reflexivity|apply (C_wf W norb); auto|].
    split; [apply Hc|]. apply Hc.
  Qed.
  Lemma work_ok c : valid_con norb c -> con_work W norb ns nd alphas c = Ok (work c).
  Proof.
    intros Hc. unfold con_work. rewrite full_mask_ok by auto. cbn [bind].
    rewrite (mapM_ok _ (hist c)); [reflexivity|]. intros al Hal. apply hist_ok; auto.
  Qed.
  Lemma list_sum_0 l : list_sum l = 0 -> forall x, In x l -> x = 0.
  Proof. induction l as [|y l IH]; cbn; intros H x []; subst; [lia|]. apply IH; auto. change (y + list_sum l = 0) in H. lia. Qed.
  Lemma work_pos c x : valid_con norb c -> wf norb x -> near alphas x -> meets c x -> work c <> 0.
  Proof.
    intros Hc Wx (al & k & Ial & Lk & M) H E.
    assert (Z : hist c al = 0) by (apply (list_sum_0 _ E), in_map, Ial). unfold hist in Z.
    destruct k as [|[|[|k]]]; [| | |lia].
    - apply moves_0 in M. subst x. rewrite (proj2 (sat_ok c al Hc) H) in Z. lia.
    - assert (I : In x (gen1 W norb c al)) by (apply gen1_In; auto). destruct (gen1 W norb c al); [destruct I|]. cbn in Z. lia.
    - assert (I : In x (gen2 W c al)) by (apply (gen2_In W norb); auto). destruct (gen2 W c al); [destruct I|]. cbn in Z. lia.
  Qed.
  Lemma work_zero c : valid_con norb c -> (forall x, wf norb x -> near alphas x -> ~ meets c x) -> work c = 0.
  Proof.
    intros Hc H. unfold work. assert (Z : forall al, In al alphas -> hist c al = 0).
    { intros al Ial. unfold hist.
      assert (G1 : gen1 W norb c al = []).
      { destruct (gen1 W norb c al) as [|x l] eqn:E; auto. exfalso.
        assert (I : In x (gen1 W norb c al)) by (rewrite E; left; auto). apply gen1_In in I; auto.
        apply (H x); try tauto. exists al, 1. split; auto. split; [lia|tauto]. }
      assert (G2 : gen2 W c al = []).
      { destruct (gen2 W c al) as [|x l] eqn:E; auto. exfalso.
        assert (I : In x (gen2 W c al)) by (rewrite E; left; auto). apply (gen2_In W norb) in I; auto.
        apply (H x); try tauto. exists al, 2. split; auto. split; [lia|tauto]. }
      rewrite G1, G2. cbn. destruct (sat al c) eqn:E; auto. exfalso. apply sat_ok in E; auto. apply (H al); auto.
      exists al, 0. split; auto. split; [lia|]. apply moves_0. reflexivity. }
    clear - Z. induction alphas as [|y l IH]; cbn; auto. rewrite Z by (left; auto). apply IH. intros; apply Z; right; auto.
  Qed.
  Definition wl (cs : list constraint) : list (constraint * nat) := filter (fun p => negb (snd p =? 0)) (map (fun c => (c, work c)) cs).
  Lemma with_work_ok cs : Forall (valid_con norb) cs -> exists t, with_work W norb ns nd alphas cs = Ok (wl cs, t).
  Proof.
    intros H. unfold with_work. rewrite (mapM_ok _ (fun c => (c, work c))); [cbn [bind]; eauto|].
    rewrite Forall_forall in H. intros c Hc. rewrite work_ok by auto. reflexivity.
  Qed.
  Lemma wl_In cs p : In p (wl cs) -> In (fst p) cs /\ snd p = work (fst p) /\ snd p <> 0.
  Proof.
    unfold wl. rewrite filter_In, in_map_iff. intros [(c & <- & Hc) E]. cbn in *. split; auto. split; auto.
    destruct (Nat.eqb_spec (work c) 0); auto; discriminate.
  Qed.
  Lemma wl_nm_le cs x : nm x (map fst (wl cs)) <= nm x cs.
  Proof.
    unfold wl. induction cs as [|c r IH]; cbn [map filter nm]; auto. destruct (negb _); cbn [map fst nm]; destruct (sat x c); lia.
  Qed.
  Lemma wl_nm cs x : Forall (valid_con norb) cs -> wf norb x -> near alphas x -> nm x (map fst (wl cs)) = nm x cs.
  Proof.
    intros H Wx Nx. induction H as [|c r Hc Hr IH]; auto. unfold wl in *. cbn [map filter nm snd].
    destruct (Nat.eqb_spec (work c) 0) as [E|E]; cbn [negb map fst nm]; [|lia].
    rewrite IH. destruct (sat x c) eqn:S1; auto. exfalso. apply sat_ok in S1; auto. eapply work_pos; eauto.
  Qed.

  Definition LI (lv : nat) (l : list (constraint * nat)) : Prop :=
    (forall p, In p l -> valid_con norb (fst p) /\ bs_count (con_C (fst p)) <= 3 + lv /\ snd p = work (fst p) /\ snd p <> 0) /\
    (forall x, nm x (map fst l) <= 1) /\
    (forall x, wf norb x -> near alphas x -> 3 + lv <= bs_count x -> nm x (map fst l) = 1).
  Lemma LI_perm lv l l' : Permutation l l' -> LI lv l -> LI lv l'.
  Proof.
    intros P (H1 & H2 & H3). split; [|split].
    - intros p Hp. apply H1. eapply Permutation_in; [|exact Hp]. symmetry. exact P.
    - intros x. rewrite <- (nm_perm x _ _ (Permutation_map fst P)). auto.
    - intros x A B D. rewrite <- (nm_perm x _ _ (Permutation_map fst P)). auto.
  Qed.
  Lemma LI_up lv l : LI lv l -> LI (S lv) l.
  Proof.
    intros (H1 & H2 & H3). split; [|split; auto].
    - intros p Hp. destruct (H1 p Hp) as (A & B & D & E). split; [exact A|]. split; [lia|]. split; auto.
    - intros x A B D. apply H3; auto. lia.
  Qed.
  Lemma LI_0 : LI 0 (wl (map trip (triplets norb))).
  Proof.
    assert (V : Forall (valid_con norb) (map trip (triplets norb))).
    { apply Forall_forall. intros c Hc. apply in_map_iff in Hc. destruct Hc as (t & <- & Ht). apply trip_valid, Ht. }
    split; [|split].
    - intros p Hp. apply wl_In in Hp. destruct Hp as (A & B & D). rewrite Forall_forall in V. split; auto. split; auto.
      apply in_map_iff in A. destruct A as ([[i j] k] & <- & Ht). apply triplets_In in Ht.
      apply (count_incl _ [i; j; k]). intros z Hz. cbn [trip] in Hz. rewrite tb_trip in Hz by lia.
      rewrite !orb_true_iff, !Nat.eqb_eq in Hz. cbn [In]. lia.
    - intros x. pose proof (wl_nm_le (map trip (triplets norb)) x). pose proof (trip_le x). lia.
    - intros x A B D. rewrite wl_nm by auto. apply trip_ge; auto.
  Qed.
  Lemma nm_concat_children x l : Forall (valid_con norb) l ->
    nm x (concat (map (fun c => map (child c) (seq 0 (con_min c))) l)) <= nm x l /\
    ((forall c, In c l -> bs_count (con_C c) < bs_count x) ->
      nm x (concat (map (fun c => map (child c) (seq 0 (con_min c))) l)) = nm x l).
  Proof.
    induction 1 as [|c r Hc Hr [IH1 IH2]]; cbn [map concat]; auto. rewrite nm_app.
    change (nm x (c :: r)) with (nm x ([c] ++ r)). rewrite nm_app. split.
    - pose proof (children_le c x Hc). lia.
    - intros H. rewrite (children_eq c x Hc) by (apply H; left; auto). rewrite IH2; auto. intros; apply H; right; auto.
  Qed.
  Lemma split_ok avg n : forall lv l, LI lv l -> always (split_levels n W norb ns nd alphas avg l) (LI (lv + n)).
  Proof.
    induction n as [|n IH]; intros lv l HL; cbn [split_levels].
    - apply always_ret. rewrite Nat.add_0_r. exact HL.
    - eapply always_bind; [apply std_partition_always|]. intros [l1 l2] [P1 P2]. cbn [fst snd] in *.
      assert (P : Permutation l (l1 ++ l2)).
      { transitivity (filter (fun a : constraint * nat => snd a <=? avg) l ++ filter (fun x => negb (snd x <=? avg)) l).
        - clear. induction l as [|p r IH]; auto. cbn [filter]. destruct (snd p <=? avg); cbn [negb app]; auto.
          apply Permutation_cons_app, IH.
        - apply Permutation_app; auto. }
      assert (HL' : LI lv (l1 ++ l2)) by (eapply LI_perm; eauto). clear P P1 P2 HL.
      destruct l2 as [|p0 r0] eqn:E2.
      + apply always_ret. rewrite app_nil_r in HL'. replace (lv + S n) with (S n + lv) by lia.
        generalize (S n). intros k. induction k as [|k IHk]; auto. apply LI_up, IHk.
      + rewrite <- E2 in *. clear E2 p0 r0. destruct HL' as (H1 & H2 & H3).
        assert (V2 : Forall (valid_con norb) (map fst l2)).
        { apply Forall_forall. intros c Hc. apply in_map_iff in Hc. destruct Hc as (p & <- & Hp).
          apply H1, in_or_app. auto. }
        set (ch := map (fun c => map (child c) (seq 0 (con_min c))) (map fst l2)).
        apply always_bind with (P := fun cs => cs = ch).
        { eapply always_det; [|reflexivity].
          rewrite (mapM_ok _ (fun p : constraint * nat => map (child (fst p)) (seq 0 (con_min (fst p))))).
          - unfold ch. rewrite map_map. reflexivity.
          - intros p Hp. apply children_ok; auto. apply H1, in_or_app. auto. }
        intros cs ->.
        assert (VC : Forall (valid_con norb) (concat ch)).
        { apply Forall_forall. intros c Hc. apply in_concat in Hc. destruct Hc as (y & Hy & Hc). unfold ch in Hy.
          apply in_map_iff in Hy. destruct Hy as (d & <- & Hd). apply in_map_iff in Hc. destruct Hc as (q & <- & Hq).
          apply in_seq in Hq. rewrite Forall_forall in V2. apply child_valid; auto. lia. }
        destruct (with_work_ok (concat ch) VC) as [tw Ew].
        apply always_bind with (P := fun nw => nw = (wl (concat ch), tw)); [eapply always_det; [exact Ew|reflexivity]|].
        intros nw ->. cbn [fst].
        replace (lv + S n) with (S lv + n) by lia. apply IH. split; [|split].
        * intros p Hp. apply in_app_or in Hp. destruct Hp as [Hp|Hp].
          { destruct (H1 p) as (A & B & D & E); [apply in_or_app; auto|]. split; [exact A|]. split; [lia|]. split; auto. }
          apply wl_In in Hp. destruct Hp as (A & B & D). rewrite Forall_forall in VC. split; auto. split; auto.
          apply in_concat in A. destruct A as (y & Hy & Hc). unfold ch in Hy.
          apply in_map_iff in Hy. destruct Hy as (d & <- & Hd). apply in_map_iff in Hc. destruct Hc as (q & <- & Hq).
          apply in_seq in Hq. apply in_map_iff in Hd. destruct Hd as (p' & <- & Hp').
          destruct (H1 p') as (A & B' & _); [apply in_or_app; auto|]. rewrite child_count by (auto; lia). lia.
        * intros x. rewrite map_app, nm_app. pose proof (wl_nm_le (concat ch) x).
          pose proof (proj1 (nm_concat_children x _ V2)). fold ch in H0.
          specialize (H2 x). rewrite map_app, nm_app in H2. lia.
        * intros x A B D. rewrite map_app, nm_app, wl_nm by auto.
          unfold ch. rewrite (proj2 (nm_concat_children x _ V2)).
          { rewrite <- nm_app, <- map_app. apply H3; auto. lia. }
          intros c Hc. apply in_map_iff in Hc. destruct Hc as (p & <- & Hp).
          destruct (H1 p) as (_ & B' & _); [apply in_or_app; auto|]. lia.
  Qed.
End LV.

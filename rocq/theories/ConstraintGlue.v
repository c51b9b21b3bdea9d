(** Statements of the constraint properties in terms of the specification. *)
From Coq Require Import Sorting.Permutation Sorting.Sorted.
From Verif Require Import Base Nondet Bits BitsProofs SD Spec SDProofs SDProofs2 SlaterCondon PropsHamGlue Constraint ConstraintSpec ConstraintProofs
  ConstraintProofs2 ConstraintProofs3 ConstraintDist ConstraintDist2.
Local Open Scope nat_scope.

Lemma meets_con_of l k x : NoDup l -> meets (con_of l k) x <-> (forall z, k <= z -> (tb x z = true <-> In z l)).
Proof.
  intros Nd. unfold meets, con_of. cbn [con_C con_min].
  assert (T : forall z, tb (fold_left flipb l 0%N) z = true <-> In z l).
  { intros z. rewrite tb_fold_flip; auto using tb_0. rewrite tb_0, orb_false_l, existsb_exists. split.
    - intros (y & Hy & E). apply Nat.eqb_eq in E. congruence.
    - intros Hz. exists z. split; auto. apply Nat.eqb_refl. }
  split; intros H z Hz; specialize (H z Hz).
  - rewrite H. apply T.
  - destruct (tb x z) eqn:E1, (tb (fold_left flipb l 0%N) z) eqn:E2; auto.
    + assert (In z l) by tauto. apply T in H0. congruence.
    + apply T in E2. apply H in E2. congruence.
Qed.
Lemma c29_triplet W norb i j k : k < j -> j < i -> i < norb -> norb <= W -> k < 64 ->
  exists c, make_triplet W i j k = Ok c /\ valid_con norb c /\
    forall x, meets c x <-> forall z, k <= z -> (tb x z = true <-> z = i \/ z = j \/ z = k).
Proof.
  intros H1 H2 H3 H4 H5. exists (con_of [i; j; k] k). split; [apply triplet_ok; lia|]. split.
  - apply (con_of_valid norb [i; j] k).
    + cbn [app]. nodupx.
    + cbn; lia.
    + cbn [In]. lia.
    + cbn [app In]. lia.
  - intros x. rewrite meets_con_of by (nodupx). cbn [In]. split; intros H z Hz; rewrite (H z Hz); intuition.
Qed.
Lemma c29_quad W norb i j k l : l < k -> k < j -> j < i -> i < norb -> norb <= W -> l < 64 ->
  exists c, make_quad W i j k l = Ok c /\ valid_con norb c /\
    forall x, meets c x <-> forall z, l <= z -> (tb x z = true <-> z = i \/ z = j \/ z = k \/ z = l).
Proof.
  intros H0 H1 H2 H3 H4 H5. exists (con_of [i; j; k; l] l). split; [apply quad_ok; lia|]. split.
  - apply (con_of_valid norb [i; j; k] l).
    + cbn [app]. nodupx.
    + cbn; lia.
    + cbn [In]. lia.
    + cbn [app In]. lia.
  - intros x. rewrite meets_con_of by (nodupx). cbn [In]. split; intros H z Hz; rewrite (H z Hz); intuition.
Qed.

Section C30.
  Variables (W norb : nat) (c : constraint) (det : N).
  Hypotheses (HW : norb <= W) (H64 : (N.of_nat W < 2 ^ 64)%N) (Hc : valid_con norb c) (Hd : wf norb det).
  Lemma c30_singles : exists Om l, full_mask W norb = Ok Om /\
    generate_constraint_singles W det (con_C c) Om (con_B c) [] = Ok l /\ NoDup l /\
    (forall t, In t l <-> wf norb t /\ moves 1 det t /\ meets c t).
  Proof.
    exists (mask W norb), (gen1 W norb c det). split; [apply full_mask_ok; auto|]. split; [|split].
    - rewrite gen1_ok by auto. destruct (gen1 W norb c det); reflexivity.
    - apply gen1_NoDup; auto.
    - apply gen1_In; auto.
  Qed.
  Lemma c30_doubles : exists Om l, full_mask W norb = Ok Om /\
    generate_constraint_doubles W det (con_C c) Om (con_B c) = Ok l /\ NoDup l /\
    (forall t, In t l <-> wf norb t /\ moves 2 det t /\ meets c t).
  Proof.
    exists (mask W norb), (gen2 W c det). split; [apply full_mask_ok; auto|]. split; [|split].
    - apply gen2_ok; auto.
    - apply (gen2_NoDup W norb); auto.
    - apply gen2_In; auto.
  Qed.
  Lemma c31_counts : exists Om l1 l2, full_mask W norb = Ok Om /\
    generate_constraint_singles W det (con_C c) Om (con_B c) [] = Ok l1 /\
    generate_constraint_doubles W det (con_C c) Om (con_B c) = Ok l2 /\
    count_constraint_singles W det (con_C c) Om (con_B c) = length l1 /\
    count_constraint_doubles W det (con_C c) Om (con_B c) = length l2.
  Proof.
    exists (mask W norb), (gen1 W norb c det), (gen2 W c det). repeat split.
    - apply full_mask_ok; auto.
    - rewrite gen1_ok by auto. destruct (gen1 W norb c det); reflexivity.
    - apply gen2_ok; auto.
    - apply single_counts; auto.
    - apply double_counts; auto.
  Qed.
  Lemma con_ffs : ffs_m1 UB W (con_C c) = Ok (con_min c).
  Proof.
    destruct Hc as (H1 & H2 & H3 & _). apply ffs_m1_low.
    - intros k Hk. apply H1. lia.
    - split; auto.
  Qed.
  (* the number of same-spin excitations plus those combined with an excitation
     of the other spin, plus the other spin's own ones if [det] itself qualifies *)
  Lemma c31_histogram ns nd : exists l1 l2 w, NoDup l1 /\ NoDup l2 /\
    (forall t, In t l1 <-> wf norb t /\ moves 1 det t /\ meets c t) /\
    (forall t, In t l2 <-> wf norb t /\ moves 2 det t /\ meets c t) /\
    (do Om <- full_mask W norb; constraint_histogram W det ns nd (con_C c) Om (con_B c)) = Ok w /\
    ((meets c det -> w = length l1 + length l2 + length l1 * ns + ns + nd + 1) /\
     (~ meets c det -> w = length l1 + length l2 + length l1 * ns)).
  Proof.
    exists (gen1 W norb c det), (gen2 W c det). eexists. split; [apply gen1_NoDup; auto|].
    split; [apply (gen2_NoDup W norb); auto|]. split; [apply gen1_In; auto|]. split; [apply gen2_In; auto|].
    rewrite full_mask_ok by auto. cbn [bind]. unfold constraint_histogram. rewrite con_ffs. cbn [bind].
    rewrite single_counts, double_counts by auto. split; [reflexivity|].
    pose proof (satisfies_ok norb c det Hc) as SA.
    destruct (satisfies_constraint det (con_C c) (con_min c)); split; intros H.
    - lia.
    - tauto.
    - apply SA in H. discriminate.
    - lia.
  Qed.
End C30.

Lemma meets_once_nm norb x l : Forall (valid_con norb) l -> nm x l = 1 -> meets_once l x.
Proof.
  intros V H. apply nm_1 in H. destruct H as (l1 & c & l2 & -> & S1 & S2). exists l1, c, l2. split; auto.
  rewrite Forall_forall in V. split.
  - apply (sat_ok norb); auto. apply V. apply in_or_app; right; left; auto.
  - intros c' Hc M. rewrite <- (sat_ok norb) in M; [rewrite S2 in M by auto; discriminate|].
    apply V. apply in_app_or in Hc. apply in_or_app. cbn [In]. tauto.
Qed.
Lemma nm_disjoint norb x l : Forall (valid_con norb) l -> nm x l <= 1 ->
  forall l1 c l2, l = l1 ++ c :: l2 -> meets c x -> forall c', In c' (l1 ++ l2) -> ~ meets c' x.
Proof.
  intros V H l1 c l2 -> M c' Hc' M'. rewrite Forall_forall in V.
  assert (V1 : valid_con norb c) by (apply V, in_or_app; right; left; auto).
  assert (V2 : valid_con norb c') by (apply V; apply in_app_or in Hc'; apply in_or_app; cbn [In]; tauto).
  rewrite <- (sat_ok norb) in M, M' by auto. rewrite nm_app in H. cbn [nm] in H. rewrite M in H.
  pose proof (nm_ge x (l1 ++ l2) c' Hc' M') as G. rewrite nm_app in G. lia.
Qed.
Lemma nm_le_NoDup norb l : Forall (valid_con norb) l -> (forall x, nm x l <= 1) -> NoDup l.
Proof.
  induction l as [|c l IH]; intros V H; [constructor|]. inversion V as [|? ? Vc Vl]; subst. constructor.
  - intros I. specialize (H (con_C c)). cbn [nm] in H.
    assert (S0 : sat (con_C c) c = true) by (apply (sat_ok norb); auto; intros i _; reflexivity).
    rewrite S0 in H. pose proof (nm_ge _ _ _ I S0). lia.
  - apply IH; auto. intros x. specialize (H x). cbn [nm] in H. lia.
Qed.

Section C32.
  Variables (W norb ns nd : nat) (alphas : list N) (nlevels n : nat).
  Hypotheses (HW : norb <= W) (H66 : norb <= 66) (H64 : (N.of_nat W < 2 ^ 64)%N)
    (Ha : forall al, In al alphas -> wf norb al) (Hn : 0 < n).
  Lemma c32 : always (dist_constraint_general W nlevels norb ns nd alphas n) (fun ranks =>
    length ranks = n /\
    (forall c, In c (concat ranks) -> valid_con norb c) /\
    (forall x, wf norb x -> near alphas x -> 3 + nlevels <= bs_count x -> meets_once (concat ranks) x) /\
    (forall x l1 c l2, concat ranks = l1 ++ c :: l2 -> meets c x -> forall c', In c' (l1 ++ l2) -> ~ meets c' x)).
  Proof.
    eapply always_weaken; [|apply dist_ok; auto]. cbn beta. intros ranks (L & V & M1 & M2 & _).
    assert (F : Forall (valid_con norb) (concat ranks)) by (apply Forall_forall; intros c Hc; apply V, Hc).
    split; auto. split; [intros c Hc; apply V, Hc|]. split.
    - intros x Hx Hn' Hc. apply (meets_once_nm norb); auto.
    - intros x. apply (nm_disjoint norb); auto.
  Qed.
  Lemma c33 : always (dist_constraint_general W nlevels norb ns nd alphas n) (fun ranks =>
    length ranks = n /\ NoDup (concat ranks) /\
    exists wk, (forall c, In c (concat ranks) -> con_work W norb ns nd alphas c = Ok (wk c) /\ wk c <> 0) /\
      forall r s c, r < n -> s < n -> In c (nth r ranks []) ->
        list_sum (map wk (nth r ranks [])) <= list_sum (map wk (nth s ranks [])) + wk c).
  Proof.
    eapply always_weaken; [|apply dist_ok; auto]. cbn beta. intros ranks (L & V & M1 & M2 & B).
    assert (F : Forall (valid_con norb) (concat ranks)) by (apply Forall_forall; intros c Hc; apply V, Hc).
    split; auto. split; [apply (nm_le_NoDup norb); auto|].
    exists (work norb W ns nd alphas). split; auto. intros c Hc. split; [apply work_ok; auto; apply V, Hc|apply V, Hc].
  Qed.
End C32.
(* the assignment by itself *)
Lemma c33_assign {A} (l : list (A * nat)) n : 0 < n ->
  Permutation (concat (map (fun r => map snd (filter (fun p => fst p =? r) (assign_work (repeat 0 n) l))) (seq 0 n))) (map fst l).
Proof.
  intros Hn. rewrite assign2_eq. assert (NE : repeat 0 n <> []) by (destruct n; [lia|discriminate]). rewrite buckets_perm.
  - rewrite map_map. cbn [snd]. rewrite <- (map_map snd fst), assign2_snd. reflexivity.
  - intros p Hp. apply in_map_iff in Hp. destruct Hp as (q & <- & Hq). cbn [fst].
    rewrite <- (repeat_length 0 n). apply (assign2_lt l); auto.
Qed.
(* splitting a constraint *)
Lemma c32_split norb W c : norb <= W -> valid_con norb c ->
  exists l, con_children W c = Ok l /\ (forall c', In c' l -> valid_con norb c') /\
    (forall c' x, In c' l -> meets c' x -> meets c x) /\
    forall x, meets c x -> (exists z, z < con_min c /\ tb x z = true) -> meets_once l x.
Proof.
  intros HW Hc. exists (map (child c) (seq 0 (con_min c))).
  assert (V : forall c', In c' (map (child c) (seq 0 (con_min c))) -> valid_con norb c').
  { intros c' H. apply in_map_iff in H. destruct H as (q & <- & Hq). apply in_seq in Hq. apply child_valid; auto; lia. }
  split; [apply (children_ok norb); auto|]. split; auto. split.
  - intros c' x H M. apply in_map_iff in H. destruct H as (q & <- & Hq). apply in_seq in Hq.
    apply (child_meets norb) in M; auto; [tauto|lia].
  - intros x M (z & Hz & Tz). apply (meets_once_nm norb); [apply Forall_forall; auto|].
    assert (E : exists q, q < con_min c /\ tb x q = true /\ forall y, q < y -> y < con_min c -> tb x y = false).
    { clear - Hz Tz. induction (con_min c) as [|m IH]; [lia|]. destruct (tb x m) eqn:E.
      - exists m. repeat split; auto. intros; lia.
      - assert (z <> m) by congruence. destruct IH as (q & A & B & D); [lia|]. exists q. repeat split; auto.
        intros y H1 H2. destruct (Nat.eq_dec y m) as [->|]; auto. apply D; lia. }
    destruct E as (q & Q1 & Q2 & Q3).
    assert (S1 : sat x (child c q) = true) by (apply (sat_ok norb); [apply child_valid; auto|apply (child_meets norb); auto]).
    pose proof (children_le norb c x Hc) as LE. cbn [nm] in LE.
    pose proof (nm_ge x (map (child c) (seq 0 (con_min c))) (child c q)) as G.
    assert (I : In (child c q) (map (child c) (seq 0 (con_min c)))) by (apply in_map, in_seq; lia).
    specialize (G I S1). destruct (sat x c); lia.
Qed.

(** refutations *)
Lemma valid_count norb c x : valid_con norb c -> meets c x -> 3 <= bs_count x.
Proof.
  intros (H1 & H2 & H3 & H4 & k & Hk & Sk) M. apply size_is_count in Sk.
  assert (E : bs_count x = bs_count (con_C c) + bs_count (N.ldiff x (con_C c))).
  { apply count_split.
    - intros i. rewrite tb_ldiff. destruct (tb (con_C c) i) eqn:E.
      + rewrite M; auto. destruct (Nat.lt_ge_cases i (con_min c)) as [L|L]; auto. rewrite H3 in E by auto. discriminate.
      + cbn [orb negb]. rewrite andb_true_r. reflexivity.
    - intros i Hi. rewrite tb_ldiff, Hi. apply andb_false_r. }
  lia.
Qed.
Lemma c32_few W norb ns nd alphas nlevels n : norb <= W -> norb <= 66 -> (N.of_nat W < 2 ^ 64)%N ->
  (forall al, In al alphas -> wf norb al /\ bs_count al < 3) -> 0 < n ->
  always (dist_constraint_general W nlevels norb ns nd alphas n) (fun ranks => forall r, In r ranks -> r = []).
Proof.
  intros HW H66 H64 Ha Hn.
  assert (Hw : forall al, In al alphas -> wf norb al) by (intros; apply Ha; auto).
  eapply always_weaken; [|apply dist_ok; auto]. cbn beta. intros ranks (L & V & _) r Hr.
  destruct r as [|c r]; auto. exfalso.
  assert (I : In c (concat ranks)) by (apply in_concat; exists (c :: r); split; auto; left; auto).
  destruct (V c I) as (Vc & _ & Wc). apply Wc. apply work_zero; auto.
  intros x Hx (al & k & Ia & Hk & M) Mx. apply (valid_count norb) in Mx; auto. apply count_moves in M.
  destruct (Ha al Ia). lia.
Qed.
Lemma c32_split_lost norb W c x l : valid_con norb c -> norb <= W -> con_children W c = Ok l ->
  (forall z, z < con_min c -> tb x z = false) -> forall c', In c' l -> ~ meets c' x.
Proof.
  intros Hc HW E Hx c' I M. rewrite (children_ok norb) in E by auto. injection E as <-. apply in_map_iff in I.
  destruct I as (q & <- & Hq). apply in_seq in Hq. apply (child_meets norb) in M; auto; [|lia].
  destruct M as (_ & T & _). rewrite Hx in T by lia. discriminate.
Qed.

(** examples *)
Definition con543 : constraint := mk_con 56 7 3.
Lemma con543_valid : valid_con 6 con543.
Proof. destruct (c29_triplet 64 6 5 4 3) as (c & E & V & _); try lia. vm_compute in E. injection E as <-. exact V. Qed.
Lemma meets_c x : meets con543 x <-> satisfies_constraint x 56 3 = true.
Proof. symmetry. apply (satisfies_ok 6 con543), con543_valid. Qed.
Lemma c29_ex : valid_con 6 con543 /\ meets con543 57 /\ ~ meets con543 43.
Proof.
  split; [apply con543_valid|]. rewrite !meets_c. split; [reflexivity|]. intros H. vm_compute in H. discriminate.
Qed.
Lemma c29_wide : make_triplet 256 67 66 65 = Err Throw.
Proof. vm_compute. reflexivity. Qed.
Lemma c30_ex : valid_con 6 con543 /\ wf 6 43 /\ moves 1 43 57 /\ meets con543 57 /\ moves 2 43 60 /\ meets con543 60.
Proof.
  split; [apply con543_valid|]. rewrite !meets_c. repeat split; try wfc; sz.
Qed.
Lemma c30_stale : exists Om, full_mask 64 6 = Ok Om /\ valid_con 6 con543 /\
  generate_constraint_singles 64 7 (con_C con543) Om (con_B con543) [0%N] = Ok [0%N] /\ ~ moves 1 7 0.
Proof.
  exists 63%N. split; [reflexivity|]. split; [apply con543_valid|]. split; [reflexivity|].
  intros M. apply count_moves in M. vm_compute in M. discriminate.
Qed.
Lemma c32_ex : (forall al, In al [15%N; 39%N] -> wf 6 al) /\ near [15%N; 39%N] 57 /\ 3 + 1 <= bs_count 57.
Proof.
  split; [|split].
  - intros al [<-|[<-|[]]]; wfc.
  - exists 39%N, 2. split; [right; left; auto|]. split; [lia|]. mv.
  - vm_compute. lia.
Qed.
Lemma c32_few_ex : (forall al, In al [3%N] -> wf 6 al /\ bs_count al < 3) /\ near [3%N] 5.
Proof.
  split.
  - intros al [<-|[]]. split; [wfc|vm_compute; lia].
  - exists 3%N, 1. split; [left; auto|]. split; [lia|]. mv.
Qed.

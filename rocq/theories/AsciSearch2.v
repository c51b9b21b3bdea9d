(** The loop over core determinants and the selection step of asci_search. *)
From Coq Require Import QArith Qcanon Sorting.Permutation Sorting.Sorted.
From Verif Require Import Base Nondet Bits BitsProofs SD Spec SDProofs SDProofs2 SDProofs3 SDProofs4 SDProofs5 Sums
  FockSpec FockProofs SlaterCondon Ham
  HamProofs HamProofs2 HamProofs3 HamProofs4 HamProofs5 HamProofs6 HamProofs7 HamProofs8 PropsHamGlue
  Asci AsciSpec AsciSort AsciContrib AsciContrib2 AsciSearch.
Local Open Scope nat_scope.

(** ** Qcabs *)
Lemma Qcabs_nonneg x : (0 <= Qcabs x)%Qc.
Proof.
  unfold Qcabs. destruct (qlt_spec x 0) as [A|A]; [|apply Qcnot_lt_le, A].
  apply Qclt_minus_iff in A. rewrite Qcplus_0_l in A. apply Qclt_le_weak, A.
Qed.
Lemma Qcopp_0 : (- 0)%Qc = 0%Qc. Proof. ring. Qed.
Lemma Qcabs_zero x : Qcabs x = 0%Qc -> x = 0%Qc.
Proof.
  unfold Qcabs. destruct (qlt x 0); auto. intros H. rewrite <- (Qcopp_involutive x), H. apply Qcopp_0.
Qed.
Lemma Qcabs_opp x : Qcabs (- x)%Qc = Qcabs x.
Proof. pose proof (Qcabs_sgn true x) as H. unfold sgn in H. rewrite <- H. f_equal; ring. Qed.
Lemma Qcabs_id x : (0 <= x)%Qc -> Qcabs x = x.
Proof. intros H. unfold Qcabs. apply qlt_false in H. rewrite H. reflexivity. Qed.
Lemma neg_abs_lt x : (- Qcabs x < 0)%Qc <-> x <> 0%Qc.
Proof.
  split.
  - intros H ->. apply (Qclt_not_eq _ _ H). vm_compute. reflexivity.
  - intros H. apply Qclt_minus_iff. rewrite Qcplus_0_l, Qcopp_involutive.
    destruct (Qcle_lt_or_eq _ _ (Qcabs_nonneg x)) as [L|E]; auto. exfalso. apply H, Qcabs_zero. auto.
Qed.

(** ** selection *)
Lemma NoDup_app_l {A} (l1 l2 : list A) : NoDup (l1 ++ l2) -> NoDup l1.
Proof.
  induction l1 as [|a l1 IH]; cbn [app]; intros H; [constructor|]. inversion H; subst. constructor; auto.
  intros X. apply H2, in_or_app. auto.
Qed.
Lemma NoDup_sorted_lt l : StronglySorted N.lt l -> NoDup l.
Proof.
  induction 1 as [|x l Hs IH Hf]; constructor; auto. intros X. rewrite Forall_forall in Hf.
  specialize (Hf _ X). lia.
Qed.
Lemma NoDup_fst_inj {B} (l : list (N * B)) s x y : NoDup (map fst l) -> In (s, x) l -> In (s, y) l -> x = y.
Proof.
  induction l as [|[a b] l IH]; intros Nd H1 H2; [destruct H1|]. cbn [map fst] in Nd. inversion Nd; subst.
  destruct H1 as [E|H1], H2 as [E'|H2].
  - congruence.
  - injection E as -> ->. apply (in_map fst) in H2. contradiction.
  - injection E' as -> ->. apply (in_map fst) in H1. contradiction.
  - eauto.
Qed.
Lemma NoDup_fst_filter {B} (l : list (N * B)) p : NoDup (map fst l) -> NoDup (map fst (filter p l)).
Proof.
  induction l as [|a l IH]; cbn [map filter]; auto. intros H. inversion H; subst.
  destruct (p a); auto. cbn [map]. constructor; auto. intros X. apply in_map_iff in X.
  destruct X as (b & E & Hb). apply filter_In in Hb. apply H2. rewrite <- E. apply in_map. tauto.
Qed.

Lemma size_sub_ok a b : b <= a -> (N.of_nat a < 2 ^ 64)%N -> size_sub a b = N.of_nat (a - b).
Proof.
  intros H L. unfold size_sub. replace (N.of_nat a + 2 ^ 64 - N.of_nat b)%N with (N.of_nat (a - b) + 1 * 2 ^ 64)%N by lia.
  rewrite N.mod_add by discriminate. apply N.mod_small. lia.
Qed.

Definition selection (k : nat) (cdets : list N) (uniq : list contrib) (out : list N) : Prop :=
  exists sel, out = sel ++ cdets /\ NoDup sel /\ length sel <= k /\
    (forall s, In s sel -> ~ In s cdets /\ exists x, In (s, x) uniq /\ x <> 0%Qc) /\
    (forall s x t y, In s sel -> In (s, x) uniq -> In (t, y) uniq -> ~ In t cdets -> ~ In t sel ->
       (Qcabs y <= Qcabs x)%Qc) /\
    (length sel < k -> forall t y, In (t, y) uniq -> y <> 0%Qc -> In t cdets \/ In t sel).

Lemma select_ok_k W ndets_max cdets C uniq :
  NoDup (map fst uniq) -> (forall s, In s (map fst uniq) -> wf W s) -> (forall s, In s cdets -> wf W s) ->
  length cdets <= length C ->
  always (select_dets W ndets_max cdets C uniq)
         (selection (N.to_nat (size_sub ndets_max (length cdets))) cdets uniq).
Proof.
  intros Nu Wu Wc LC. unfold select_dets.
  set (scored := map (fun x : contrib => (fst x, (- Qcabs (snd x))%Qc)) uniq).
  set (sd := fun i => (nth i cdets 0%N, Qcabs (nth i C 0%Qc))).
  apply always_bind with (P := fun seeds => seeds = map sd (seq 0 (length cdets))).
  { eapply always_det; [|reflexivity]. apply mapM_ok. intros i Hi. apply in_seq in Hi.
    unfold at_. rewrite (nth_error_nth' C 0%Qc) by lia. reflexivity. }
  intros seeds ->.
  assert (SS : forall s v, In (s, v) (map sd (seq 0 (length cdets))) -> In s cdets /\ (0 <= v)%Qc).
  { intros s v H. apply in_map_iff in H. destruct H as (i & E & Hi). injection E as <- <-. apply in_seq in Hi.
    split; [apply nth_In; lia|apply Qcabs_nonneg]. }
  assert (SC : forall s, In s cdets -> exists v, In (s, v) (map sd (seq 0 (length cdets)))).
  { intros s Hs. apply (In_nth _ _ 0%N) in Hs. destruct Hs as (i & Hi & <-). exists (Qcabs (nth i C 0%Qc)).
    apply in_map_iff. exists i. split; auto. apply in_seq. lia. }
  assert (SU : forall s v, In (s, v) scored <-> exists x, In (s, x) uniq /\ v = (- Qcabs x)%Qc).
  { intros s v. unfold scored. rewrite in_map_iff. split.
    - intros ([a b] & E & H). cbn [fst snd] in E. injection E as -> <-. eauto.
    - intros (x & H & ->). exists (s, x). auto. }
  eapply always_bind; [apply keep_largest_ok|].
  { intros s Hs. rewrite map_app, in_app_iff in Hs. destruct Hs as [Hs|Hs].
    - apply Wu. unfold scored in Hs. rewrite map_map in Hs. exact Hs.
    - apply in_map_iff in Hs. destruct Hs as ([a b] & <- & Hs). apply SS in Hs. apply Wc, Hs. }
  intros kp (Ks & Ki & Kv).
  eapply always_bind; [apply std_partition_always|].
  intros [p1 p2] [P1 _]. cbn [fst snd] in P1 |- *.
  assert (Np : NoDup (map fst p1)).
  { eapply Permutation_NoDup; [apply Permutation_map, P1|]. apply NoDup_fst_filter, NoDup_sorted_lt, Ks. }
  assert (Ip : forall s v, In (s, v) p1 <-> ~ In s cdets /\ exists x, In (s, x) uniq /\ v = (- Qcabs x)%Qc /\ x <> 0%Qc).
  { intros s v. transitivity (In (s, v) (filter (fun p : contrib => qlt (snd p) 0) kp)).
    { split; intros X; [eapply Permutation_in; [apply Permutation_sym, P1|exact X]|eapply Permutation_in; eauto]. }
    rewrite filter_In. cbn [snd]. rewrite qlt_true. split.
    - intros [H1 H2]. destruct (Kv _ _ H1) as [H3 H4]. rewrite in_app_iff in H3.
      assert (Nc : ~ In s cdets).
      { intros X. destruct (SC s X) as [w Hw]. specialize (H4 w). rewrite in_app_iff in H4.
        specialize (H4 (or_intror Hw)). apply SS in Hw. destruct Hw as [_ Hw].
        apply (Qclt_not_le _ _ H2). eapply Qcle_trans; eauto. }
      split; auto. destruct H3 as [H3|H3]; [|apply SS in H3; tauto]. apply SU in H3. destruct H3 as (x & Hx & ->).
      exists x. split; auto. split; auto. apply neg_abs_lt, H2.
    - intros (Nc & x & Hx & -> & X0). split; [|apply neg_abs_lt, X0].
      assert (Hs : In s (map fst kp)).
      { apply Ki. rewrite map_app, in_app_iff. left. apply in_map_iff. exists (s, (- Qcabs x)%Qc). split; auto.
        apply SU. eauto. }
      apply in_map_iff in Hs. destruct Hs as ([s' v] & E & Hv). cbn [fst] in E. subst s'.
      destruct (Kv _ _ Hv) as [H3 _]. rewrite in_app_iff in H3. destruct H3 as [H3|H3].
      + apply SU in H3. destruct H3 as (x' & Hx' & ->). rewrite (NoDup_fst_inj uniq s x x' Nu Hx Hx'). exact Hv.
      + apply SS in H3. tauto. }
  set (kN := size_sub ndets_max (length cdets)). set (k := N.to_nat kN).
  assert (EkN : kN = N.of_nat k) by (unfold k; rewrite Nnat.N2Nat.id; reflexivity). clearbody k. rewrite EkN. clear EkN kN.
  assert (SEL : forall s2 : list contrib, forall s1, Permutation p1 (s1 ++ s2) -> length s1 <= k ->
     (forall x y, In x s1 -> In y s2 -> qlt (Qcabs (snd x)) (Qcabs (snd y)) = false) ->
     (s2 <> [] -> length s1 = k) -> selection k cdets uniq (map fst s1 ++ cdets)).
  { intros s2 s1 Pm Lk Dm Full. exists (map fst s1). split; auto.
    assert (Nd : NoDup (map fst s1 ++ map fst s2)).
    { rewrite <- map_app. eapply Permutation_NoDup; [apply Permutation_map, Pm|exact Np]. }
    assert (I1 : forall z, In z p1 <-> In z s1 \/ In z s2).
    { intros z. rewrite <- in_app_iff. split; apply Permutation_in; auto. apply Permutation_sym; auto. }
    split; [eapply NoDup_app_l; eauto|]. split; [rewrite map_length; exact Lk|]. split; [|split].
    - intros s Hs. apply in_map_iff in Hs. destruct Hs as ([s' v] & E & Hs). cbn [fst] in E. subst s'.
      assert (H : In (s, v) p1) by (apply I1; auto). apply Ip in H. destruct H as (A & x & B & _ & C'). eauto.
    - intros s x t y Hs Hx Hy Nc Nt. destruct (Qc_eq_dec y 0) as [->|Y0].
      { rewrite (Qcabs_id 0) by apply Qcle_refl. apply Qcabs_nonneg. }
      apply in_map_iff in Hs. destruct Hs as ([s' v] & E & Hs). cbn [fst] in E. subst s'.
      assert (H : In (s, v) p1) by (apply I1; auto). apply Ip in H. destruct H as (_ & x' & B & -> & _).
      rewrite <- (NoDup_fst_inj uniq s x x' Nu Hx B) in Hs.
      assert (T : In (t, (- Qcabs y)%Qc) p1) by (apply Ip; eauto 6). apply I1 in T. destruct T as [T|T].
      { exfalso. apply Nt. apply in_map_iff. exists (t, (- Qcabs y)%Qc). auto. }
      specialize (Dm _ _ Hs T). cbn [snd] in Dm. apply qlt_false in Dm.
      rewrite !Qcabs_opp, (Qcabs_id (Qcabs x)), (Qcabs_id (Qcabs y)) in Dm by apply Qcabs_nonneg. exact Dm.
    - intros Hl t y Hy Y0. destruct (in_dec N.eq_dec t cdets) as [|Nc]; auto. right.
      assert (T : In (t, (- Qcabs y)%Qc) p1) by (apply Ip; eauto 6). apply I1 in T. destruct T as [T|T].
      + apply in_map_iff. exists (t, (- Qcabs y)%Qc). auto.
      + rewrite map_length in Hl. exfalso. assert (s2 <> []) by (intros ->; destruct T). specialize (Full H). lia. }
  destruct (N.ltb_spec (N.of_nat k) (N.of_nat (length p1))) as [Hk|Hk].
  - apply always_bind with (P := fun s1 => exists s2, Permutation p1 (s1 ++ s2) /\ length s1 = k /\
      (forall x y, In x s1 -> In y s2 -> qlt (Qcabs (snd x)) (Qcabs (snd y)) = false)).
    + eapply always_bind.
      * apply nth_element_always.
        -- intros x y H. apply qlt_true in H. apply qlt_false. apply Qclt_le_weak, H.
        -- intros x y z H1 H2. apply qlt_false in H1, H2. apply qlt_false. eapply Qcle_trans; eauto.
        -- lia.
      * intros [s1 s2] (A & B & Cc). cbn [fst snd] in *. apply always_ret. exists s2. split; auto.
    + intros s1 (s2 & A & B & Cc). apply always_ret. apply (SEL s2 s1); auto. lia.
  - apply always_bind with (P := fun s1 => s1 = p1); [apply always_ret; auto|]. intros s1 ->. apply always_ret.
    apply (SEL [] p1); auto.
    + rewrite app_nil_r. auto.
    + lia.
    + intros x y _ [].
    + intros H. exfalso. apply H. reflexivity.
Qed.
Lemma select_ok W ndets_max cdets C uniq :
  NoDup (map fst uniq) -> (forall s, In s (map fst uniq) -> wf W s) -> (forall s, In s cdets -> wf W s) ->
  length cdets <= length C -> length cdets <= ndets_max -> (N.of_nat ndets_max < 2 ^ 64)%N ->
  always (select_dets W ndets_max cdets C uniq) (selection (ndets_max - length cdets) cdets uniq).
Proof.
  intros Nu Wu Wc LC Lm L64. pose proof (select_ok_k W ndets_max cdets C uniq Nu Wu Wc LC) as H.
  rewrite size_sub_ok, Nnat.Nat2N.id in H by auto. exact H.
Qed.
Lemma size_sub_wrap a b : a < b -> (N.of_nat b < 2 ^ 64)%N ->
  size_sub a b = (2 ^ 64 - N.of_nat (b - a))%N.
Proof.
  intros H L. unfold size_sub. rewrite N.mod_small by lia. lia.
Qed.
(* too small a limit *)
Lemma select_wrap W ndets_max cdets C uniq :
  NoDup (map fst uniq) -> (forall s, In s (map fst uniq) -> wf W s) -> (forall s, In s cdets -> wf W s) ->
  length cdets <= length C -> ndets_max < length cdets -> (N.of_nat (length cdets) < 2 ^ 32)%N ->
  (N.of_nat (length uniq) < 2 ^ 32)%N ->
  always (select_dets W ndets_max cdets C uniq) (fun out =>
    (forall s, In s cdets -> In s out) /\ forall t y, In (t, y) uniq -> y <> 0%Qc -> In t out).
Proof.
  intros Nu Wu Wc LC Lm L1 L2. eapply always_weaken; [|apply select_ok_k; auto].
  intros out (sel & -> & Ns & Lk & Ss & Dm & Fl). rewrite size_sub_wrap in Fl by lia.
  split; [intros; apply in_or_app; auto|]. intros t y Hy Y0. apply in_or_app.
  enough (H : In t cdets \/ In t sel) by tauto. apply (Fl) with (y := y); auto.
  assert (length sel <= length uniq).
  { rewrite <- (map_length fst uniq). apply NoDup_incl_length; auto. intros s Hs. destruct (Ss s Hs) as (_ & x & Hx & _).
    apply in_map_iff. exists (s, x). auto. }
  lia.
Qed.

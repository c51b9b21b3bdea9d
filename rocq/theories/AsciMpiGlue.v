(** The search on several ranks as a whole, and examples. *)
From Coq Require Import QArith Qcanon Sorting.Permutation Sorting.Sorted.
From Verif Require Import Base Nondet Bits BitsProofs SD Spec SDProofs SDProofs2 SDProofs3 SDProofs4 SDProofs5 Sums
  FockSpec FockProofs SlaterCondon Ham PropsHamGlue
  Asci AsciSpec AsciSort AsciContrib AsciSearch AsciSearch2 AsciSearch3 AsciGlue
  Constraint ConstraintSpec ConstraintSearch3 ConstraintGlue2
  Collective CollectiveSpec CollectiveProofs QuickProofs AsciMpi AsciMpiSpec AsciMpiProofs.
Local Open Scope nat_scope.

Lemma at_least_firstn k (P : N -> Prop) l : NoDup l -> k <= length l -> (forall t, In t l -> P t) -> at_least k P.
Proof.
  intros Nl L H. exists (firstn k l). split; [|split].
  - apply (NoDup_app_l' _ (skipn k l)). rewrite firstn_skipn. exact Nl.
  - rewrite firstn_length. lia.
  - intros t Ht. apply H. rewrite <- (firstn_skipn k l). apply in_or_app. auto.
Qed.

Section SEARCH.
  Variables (W : nat) (HW : spin_width W) (h : ints).
  Notation n := (norb h).
  Hypothesis Hn : n <= W / 2.
  Hypothesis Vs : forall p q r s, p < n -> q < n -> r < n -> s < n ->
     V_pqrs h p q r s = V_pqrs h r s p q.
  Variables (dbg : bool) (st : settings) (E0 : Qc) (C : list Qc) (cdets : list N).
  Notation tol := (h_el_tol st).
  Notation so := (just_singles st).
  Hypothesis HC : length cdets <= length C.
  Hypothesis Hsp : forall D, In D cdets -> in_space W n D /\
    (dbg = true -> bs_count (alpha W D) < n /\ bs_count (beta W D) < n).
  Variables (level world : nat).
  Hypothesis Hw : 0 < world.
  Hypothesis Hne : cdets <> [].
  Hypothesis Hel : forall D, In D cdets -> 3 + level <= bs_count (alpha W D).
  Notation cnd := (candidate W h tol E0 cdets C).

  Definition found (outs : list (list contrib)) : Prop :=
    length outs = world /\ NoDup (map fst (concat outs)) /\ (forall s, In s (map fst (concat outs)) -> wf W s) /\
    length (concat outs) <= pair_size_max st /\
    (forall t x, cand cdets (concat outs) t x <-> cnd t x).

  Lemma wf_cdets s : In s cdets -> wf W s.
  Proof. intros H. apply Hsp in H. destruct H as [H _]. apply (in_space_wf W n); auto. Qed.

  Lemma pairs_list (ts : list N) : NoDup ts -> (forall t, In t ts -> exists j, contributes_at W h tol cdets C j t) ->
    exists l : list (nat * N), NoDup l /\ map snd l = ts /\ forall i t, In (i, t) l -> contributes_at W h tol cdets C i t.
  Proof.
    induction 1 as [|t ts Nt Nd IH]; intros H.
    - exists []. split; [constructor|]. split; auto. intros i t [].
    - destruct IH as (l & Nl & Ml & Hl); [intros; apply H; right; auto|]. destruct (H t (or_introl eq_refl)) as [j Hj].
      exists ((j, t) :: l). split; [|split].
      + constructor; auto. intros X. apply (in_map snd) in X. cbn [snd] in X. rewrite Ml in X. auto.
      + cbn [map snd]. congruence.
      + intros i u [E|I]; [injection E as <- <-; auto|auto].
  Qed.
  Lemma linked_count j t : contributes_at W h tol cdets C j t -> 3 + level <= bs_count (alpha W t).
  Proof.
    intros [Lj [[G Lk] _]].
    assert (EC : bs_count (alpha W t) = bs_count (alpha W (nth j cdets 0%N))).
    { destruct Lk as [Lk|[_ Lk]]; [apply spin_moves_1 in Lk|apply spin_moves_2 in Lk].
      - destruct Lk as [[M _]|[M _]]; [apply count_moves in M; auto|congruence].
      - destruct Lk as [[M _]|[[M _]|[M _]]]; try (apply count_moves in M; auto); congruence. }
    rewrite EC. apply Hel, nth_In, Lj.
  Qed.
  Lemma found_ok : no_resonance_c W h tol E0 cdets C -> at_most_pairs_c W h tol cdets C (pair_size_max st) ->
    always (asci_contributions_constraint dbg W st level h E0 C cdets world) found.
  Proof.
    intros H1 H2. eapply always_weaken; [|apply c52_search; auto]. cbn beta. intros outs (O0 & O1 & O2 & O3).
    split; auto. split; auto. split; [|split].
    - intros s Hs. apply in_map_iff in Hs. destruct Hs as ([t x] & <- & Hs). cbn [fst]. apply O2 in Hs.
      destruct Hs as (_ & (j & Lj & [[G _] _]) & _). apply (in_space_wf W n); auto.
    - destruct (pairs_list (map fst (concat outs)) O1) as (l & Nl & Ml & Hl).
      { intros t Ht. apply in_map_iff in Ht. destruct Ht as ([t' x] & <- & Ht). apply O2 in Ht. apply Ht. }
      specialize (H2 l Nl Hl). rewrite <- (map_length fst (concat outs)), <- Ml, map_length. exact H2.
    - intros t x. unfold cand, candidate. split.
      + intros (I & X & Nc). split; auto. apply O2 in I. apply I.
      + intros (I & X & Nc). split; auto.
        assert (exists j, contributes_at W h tol cdets C j t) as [j Hj].
        { destruct I as (l & Nl & Il & E). destruct l as [|j l]; [exfalso; apply X; rewrite E; reflexivity|].
          exists j. apply Il. left. auto. }
        assert (IT : In t (map fst (concat outs))) by (apply (O3 t j Hj), (linked_count j t Hj)).
        apply in_map_iff in IT. destruct IT as ([t' v] & E & IT). cbn [fst] in E. subst t'.
        destruct (O2 t v IT) as [Hv _]. rewrite (is_score_c_unique W h st E0 C cdets t x v I Hv). exact IT.
  Qed.

  Variables (fuel : nat) (g : nat -> nat) (ndets_max : nat).
  Notation k := (ndets_max - length cdets).
  Hypothesis L1 : length cdets < ndets_max.
  Hypothesis L31 : (Z.of_nat k < 2 ^ 31)%Z.
  Hypothesis L64 : (N.of_nat ndets_max < 2 ^ 64)%N.
  Hypothesis P31 : (Z.of_nat (pair_size_max st) < 2 ^ 31)%Z.
  Hypothesis HF : pair_size_max st < fuel.
  Hypothesis Hres : no_resonance_c W h tol E0 cdets C.
  Hypothesis Hpr : at_most_pairs_c W h tol cdets C (pair_size_max st).

  Notation search := (asci_search_mpi fuel g dbg W st level h ndets_max cdets E0 C world).
  Lemma c54_search : at_least k (fun t => exists x, cnd t x) ->
    always search (fun out => exists sel v, out = sel ++ cdets /\ NoDup sel /\ length sel = k /\
      (forall t, In t sel -> exists x, cnd t x /\ (v <= Qcabs x)%Qc) /\
      (exists t x, cnd t x /\ Qcabs x = v) /\
      ~ at_least k (fun t => exists x, cnd t x /\ (v < Qcabs x)%Qc) /\
      ((exists t x, cnd t x /\ (v <= Qcabs x)%Qc /\ ~ In t sel) ->
       at_least (S k) (fun t => exists x, cnd t x /\ (v <= Qcabs x)%Qc))).
  Proof.
    intros (l0 & N0 & K0 & C0). unfold asci_search_mpi.
    eapply always_bind; [apply found_ok; auto|]. intros outs (O0 & O1 & O2 & O3 & O4).
    eapply always_weaken; [|apply (mpi_select_ok W ndets_max cdets C outs) with (l0 := l0); auto].
    - intros out (sel & v & E & Ns & Lk & Is & (s0 & x0 & H0 & Ev) & Lt & Ful).
      exists sel, v. split; auto. split; auto. split; auto. split; [|split; [|split]].
      + intros t Ht. destruct (Is t Ht) as (x & Hx & Hv). apply O4 in Hx. eauto.
      + exists s0, x0. split; auto. apply O4, H0.
      + intros (l & Nl & Ll & Hl). specialize (Lt l Nl). rewrite Ll in Lt.
        assert (k < k); [|lia]. apply Lt. intros s Hs. destruct (Hl s Hs) as (x & Hx & Hv). apply O4 in Hx. eauto.
      + intros (t & x & Hx & Hv & Nt). destruct Ful as (l & Nl & Ll & Hl); [exists t, x; split; [apply O4, Hx|auto]|].
        apply (at_least_firstn (S k) _ l Nl Ll). intros s Hs. destruct (Hl s Hs) as (y & Hy & Hvy). apply O4 in Hy. eauto.
    - intros ->. cbn in O0. lia.
    - apply wf_cdets.
    - lia.
    - intros s Hs. destruct (C0 s Hs) as [x Hx]. apply O4 in Hx. eauto.
    - lia.
    - lia.
  Qed.
  Lemma c54_short : ~ at_least k (fun t => exists x, cnd t x) -> forall r, search r -> r = Err UB.
  Proof.
    intros Sh r Hr. unfold asci_search_mpi in Hr. destruct (found_ok Hres Hpr) as [_ FA].
    destruct Hr as [(e & He & ->)|(outs & Ho & Hr)]; [destruct (FA _ He) as (? & ? & _); discriminate|].
    destruct (FA _ Ho) as (outs' & E & O0 & O1 & O2 & O3 & O4). injection E as <-.
    apply (mpi_select_short W ndets_max cdets C outs) with (fuel := fuel) (g := g); auto.
    - intros ->. cbn in O0. lia.
    - apply wf_cdets.
    - lia.
    - intros l Nl Hl. destruct (le_lt_dec k (length l)); auto. exfalso. apply Sh. apply (at_least_firstn k _ l); auto.
      intros t Ht. destruct (Hl t Ht) as [x Hx]. apply O4 in Hx. eauto.
    - lia.
  Qed.

  Hypothesis NT : forall s x t y, cnd s x -> cnd t y -> s <> t -> Qcabs x <> Qcabs y.
  Lemma c54_best : at_least k (fun t => exists x, cnd t x) ->
    always search (fun out => exists sel, out = sel ++ cdets /\ NoDup sel /\ length sel = k /\
      (forall t, In t sel -> exists x, cnd t x) /\
      forall t x u y, In t sel -> cnd t x -> cnd u y -> ~ In u sel -> (Qcabs y <= Qcabs x)%Qc).
  Proof.
    intros (l0 & N0 & K0 & C0). unfold asci_search_mpi.
    eapply always_bind; [apply found_ok; auto|]. intros outs (O0 & O1 & O2 & O3 & O4).
    eapply always_weaken; [|apply (mpi_select_best W ndets_max cdets C outs) with (l0 := l0); auto].
    - intros out (sel & E & Ns & Lk & Is & Dm & Fl).
      exists sel. split; auto. split; auto.
      assert (LS : length sel = k).
      { destruct (le_lt_dec k (length sel)); [lia|]. specialize (Fl l). exfalso.
        assert (length l0 <= length sel); [|lia]. apply NoDup_incl_length; auto. intros s Hs.
        destruct (C0 s Hs) as (x & Hx). pose proof Hx as (_ & X & Nc). apply O4 in Hx. destruct Hx as (I & _). destruct (Fl s x I X); tauto. }
      split; auto. split.
      + intros t Ht. destruct (Is t Ht) as (Nc & x & I & X). exists x. apply O4. split; auto.
      + intros t x u y Ht Hx Hy Nu. apply O4 in Hx, Hy. apply (Dm t x u y); auto; [apply Hx|apply Hy|apply Hy].
    - intros ->. cbn in O0. lia.
    - apply wf_cdets.
    - lia.
    - intros s Hs. destruct (C0 s Hs) as [x Hx]. apply O4 in Hx. eauto.
    - lia.
    - intros s x t y Hx Hy. apply NT; apply O4; auto.
    - lia.
  Qed.
End SEARCH.

(* two selections of the best candidates agree when there are no ties *)
Lemma selection_unique k cdets u1 u2 o1 o2 (l0 : list N) :
  NoDup (map fst u1) -> Permutation u1 u2 ->
  NoDup l0 -> length l0 = k -> (forall s, In s l0 -> exists x, cand cdets u1 s x) ->
  (forall s x t y, cand cdets u1 s x -> cand cdets u1 t y -> s <> t -> Qcabs x <> Qcabs y) ->
  selection k cdets u1 o1 -> selection k cdets u2 o2 -> Permutation o1 o2.
Proof.
  intros Nu P N0 K0 C0 NT (s1 & -> & Ns1 & L1 & I1 & D1 & F1) (s2 & -> & Ns2 & L2 & I2 & D2 & F2).
  assert (EI : forall z, In z u1 <-> In z u2) by (intros z; split; apply Permutation_in; auto; apply Permutation_sym; auto).
  assert (E1 : length s1 = k).
  { destruct (le_lt_dec k (length s1)); [lia|]. exfalso. assert (length l0 <= length s1); [|lia].
    apply NoDup_incl_length; auto. intros s Hs. destruct (C0 s Hs) as (x & I & X & Nc). destruct (F1 l s x I X); tauto. }
  assert (E2 : length s2 = k).
  { destruct (le_lt_dec k (length s2)); [lia|]. exfalso. assert (length l0 <= length s2); [|lia].
    apply NoDup_incl_length; auto. intros s Hs. destruct (C0 s Hs) as (x & I & X & Nc). apply EI in I. destruct (F2 l s x I X); tauto. }
  apply Permutation_app_tail. apply NoDup_Permutation_bis; auto; [lia|].
  intros s Hs. destruct (in_dec N.eq_dec s s2) as [|N2]; auto. exfalso.
  assert (exists t, In t s2 /\ ~ In t s1) as (t & T2 & T1).
  { assert (~ incl s2 (remove N.eq_dec s s1)).
    { intros X. apply NoDup_incl_length in X; auto.
      assert (length (remove N.eq_dec s s1) < length s1) by (apply remove_length_lt; auto). lia. }
    assert (X : forall l, ~ incl l (remove N.eq_dec s s1) -> exists t, In t l /\ ~ In t (remove N.eq_dec s s1)).
    { clear. induction l as [|a l IH]; intros H; [exfalso; apply H; intros ? []|].
      destruct (in_dec N.eq_dec a (remove N.eq_dec s s1)) as [I|I].
      - destruct IH as (t & A & B); [|exists t; split; [right|]; auto]. intros X. apply H. intros z [<-|Hz]; auto.
      - exists a. split; [left|]; auto. }
    destruct (X s2 H) as (t & A & B). exists t. split; auto. intros I. apply B. apply in_in_remove; auto. intros ->. auto. }
  destruct (I1 s Hs) as (Nc & x & Hx & X0). destruct (I2 t T2) as (Nct & y & Hy & Y0). apply EI in Hy.
  apply (NT s x t y).
  - split; auto.
  - split; auto.
  - intros ->. auto.
  - apply Qcle_antisym.
    + apply (D2 t y s x T2); auto; apply EI; auto.
    + apply (D1 s x t y Hs); auto.
Qed.

Section AGREE2.
  Variables (W : nat) (HW : spin_width W) (h : ints).
  Notation n := (norb h).
  Hypothesis Hn : n <= W / 2.
  Hypothesis Vs : forall p q r s, p < n -> q < n -> r < n -> s < n ->
     V_pqrs h p q r s = V_pqrs h r s p q.
  Variables (dbg : bool) (st : settings) (E0 : Qc) (C : list Qc) (cdets : list N).
  Notation tol := (h_el_tol st).
  Notation so := (just_singles st).
  Hypothesis HC : length cdets <= length C.
  Hypothesis Hsp : forall D, In D cdets -> in_space W n D /\
    (dbg = true -> bs_count (alpha W D) < n /\ bs_count (beta W D) < n).
  Variables (level world : nat).
  Hypothesis Hw : 0 < world.
  Hypothesis Hne : cdets <> [].
  Hypothesis Hel : forall D, In D cdets -> 3 + level <= bs_count (alpha W D).
  Notation cnd := (candidate W h tol E0 cdets C).
  Variables (fuel : nat) (g : nat -> nat) (ndets_max : nat).
  Notation k := (ndets_max - length cdets).
  Hypothesis L1 : length cdets < ndets_max.
  Hypothesis L31 : (Z.of_nat k < 2 ^ 31)%Z.
  Hypothesis L64 : (N.of_nat ndets_max < 2 ^ 64)%N.
  Hypothesis P31 : (Z.of_nat (pair_size_max st) < 2 ^ 31)%Z.
  Hypothesis HF : pair_size_max st < fuel.
  Hypothesis So : so = false.
  Hypothesis Hag : forall i t, i < length cdets -> linked W h false (nth i cdets 0%N) t ->
     (contributes W h tol false (nth i cdets 0%N) t <-> contributes_c W h tol (nth i C 0%Qc) (nth i cdets 0%N) t).
  Hypothesis Hres : no_resonance W h tol so E0 cdets.
  Hypothesis Hpr : at_most_pairs W h tol so cdets (pair_size_max st).
  Hypothesis NT : forall s x t y, cnd s x -> cnd t y -> s <> t -> Qcabs x <> Qcabs y.
  Lemma c54_agree : at_least k (fun t => exists x, cnd t x) ->
    always (asci_search dbg W st h ndets_max cdets E0 C) (fun d1 =>
      always (asci_search_mpi fuel g dbg W st level h ndets_max cdets E0 C world) (fun d2 => Permutation d1 d2)).
  Proof.
    intros (l0 & N0 & K0 & C0).
    assert (CA : forall i t, contributes_at W h tol cdets C i t <-> i < length cdets /\ contributes W h tol so (nth i cdets 0%N) t).
    { intros i t. rewrite So. unfold contributes_at. split; intros [L H]; split; auto.
      - apply Hag; auto. destruct H; auto.
      - apply Hag; auto. destruct H; auto. }
    assert (Hres' : no_resonance_c W h tol E0 cdets C).
    { intros i t H. apply CA in H. apply (Hres (nth i cdets 0%N)); [apply nth_In; tauto|tauto]. }
    assert (Hpr' : at_most_pairs_c W h tol cdets C (pair_size_max st)).
    { intros l Nl Hl. apply Hpr; auto. intros i t I. apply CA. auto. }
    assert (SW : forall D, In D cdets -> wf W D) by (intros D HD; apply Hsp in HD; destruct HD as [HD _]; apply (in_space_wf W n); auto).
    pose proof (c52_agree W HW h Hn Vs dbg st E0 C cdets HC Hsp level world Hw Hne So Hel Hag Hres Hpr) as AG.
    assert (SS : always (serial W h dbg st E0 C cdets) (fun s => NoDup (map fst s) /\ (forall t, In t (map fst s) -> wf W t) /\
       always (asci_contributions_constraint dbg W st level h E0 C cdets world) (fun outs => Permutation (concat outs) s))).
    { eapply always_weaken; [|apply always_and; [exact AG|apply (serial_ok W HW h Hn Vs dbg st E0 C cdets HC Hsp Hres Hpr)]].
      cbn beta. intros s (A & B & Cc). split; auto. split; auto. intros t Ht. apply in_map_iff in Ht. destruct Ht as ([t' x] & <- & I).
      apply Cc in I. destruct I as (_ & D & _ & [[G _] _]). apply (in_space_wf W n); auto. }
    assert (AS : always (any s <- serial W h dbg st E0 C cdets; select_dets W ndets_max cdets C s) (fun d1 =>
      always (asci_search_mpi fuel g dbg W st level h ndets_max cdets E0 C world) (fun d2 => Permutation d1 d2))).
    { eapply always_bind; [exact SS|]. cbn beta. intros s (S1 & S2 & S3).
      eapply always_weaken; [|apply (select_ok W ndets_max cdets C s); auto; lia]. intros d1 Hd1.
      unfold asci_search_mpi.
      eapply always_bind; [apply always_and; [exact S3|apply (found_ok W HW h Hn Vs dbg st E0 C cdets HC Hsp level world Hw Hne Hel Hres' Hpr')]|].
      cbn beta. intros outs (PO & O0 & O1 & O2 & O3 & O4).
      eapply always_weaken; [|apply (mpi_select_best W ndets_max cdets C outs) with (l0 := l0); auto].
      - intros d2 Hd2. apply Permutation_sym.
        apply (selection_unique k cdets (concat outs) s d2 d1 l0); auto.
        + intros t Ht. destruct (C0 t Ht) as [x Hx]. apply O4 in Hx. eauto.
        + intros a x b y Hx Hy. apply NT; apply O4; auto.
      - intros ->. cbn in O0. lia.
      - lia.
      - intros t Ht. destruct (C0 t Ht) as [x Hx]. apply O4 in Hx. eauto.
      - lia.
      - intros a x b y Hx Hy. apply NT; apply O4; auto.
      - lia. }
    assert (EQ : forall r, asci_search dbg W st h ndets_max cdets E0 C r <->
       (any s <- serial W h dbg st E0 C cdets; select_dets W ndets_max cdets C s) r).
    { intros r. unfold asci_search, serial. unfold nbind. split.
      - intros [(e & He & ->)|(a & Ha & [(e & He & ->)|(b & Hb & Hr)])].
        + left. exists e. split; auto. left. exists e. auto.
        + left. exists e. split; auto. right. exists a. auto.
        + right. exists b. split; auto. right. exists a. auto.
      - intros [(e & [(e' & He & E)|(a & Ha & He)] & ->)|(b & [(e' & He & E)|(a & Ha & Hb)] & Hr)].
        + injection E as ->. left. eauto.
        + right. exists a. split; auto. left. eauto.
        + discriminate.
        + right. exists a. split; auto. right. eauto. }
    destruct AS as [[r Hr] AS]. split; [exists r; apply EQ, Hr|]. intros r' Hr'. apply AS, EQ, Hr'.
  Qed.
End AGREE2.

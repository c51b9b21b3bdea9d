(** The loop over constraints of one rank, and all ranks together. *)
From Coq Require Import QArith Qcanon Sorting.Permutation Sorting.Sorted.
From Verif Require Import Base Nondet Bits BitsProofs SD Spec SDProofs SDProofs2 SDProofs3 SDProofs4 SDProofs5 Sums
  FockSpec FockProofs SlaterCondon Ham
  HamProofs HamProofs2 HamProofs3 HamProofs4 HamProofs5 HamProofs6 HamProofs7 HamProofs8 PropsHamGlue
  Asci AsciSpec AsciSort AsciContrib AsciContrib2 AsciSearch AsciSearch2 AsciSearch3
  Constraint ConstraintSpec ConstraintProofs ConstraintProofs2 ConstraintProofs3 ConstraintDist ConstraintDist2
  ConstraintGlue ConstraintContrib ConstraintSearch ConstraintSearch2.
Local Open Scope nat_scope.

Lemma firstn_len {A} (l1 l2 : list A) : firstn (length l1) (l1 ++ l2) = l1.
Proof. rewrite firstn_app, firstn_all, Nat.sub_diag. cbn. apply app_nil_r. Qed.
Lemma skipn_len {A} (l1 l2 : list A) : skipn (length l1) (l1 ++ l2) = l2.
Proof. rewrite skipn_app, skipn_all, Nat.sub_diag. reflexivity. Qed.

Lemma mapND_always {A B} (f : A -> nd B) (R : A -> B -> Prop) l :
  (forall a, In a l -> always (f a) (R a)) -> always (mapND f l) (fun bs => Forall2 R l bs).
Proof.
  induction l as [|a l IH]; intros H; cbn [mapND].
  - apply always_ret. constructor.
  - apply always_bind with (P := R a); [apply H; left; auto|]. intros b Hb.
    eapply always_bind; [apply IH; intros; apply H; right; auto|]. intros bs Hbs. apply always_ret. constructor; auto.
Qed.

Section LOOP.
  Variables (W : nat) (HW : spin_width W) (h : ints).
  Notation n := (norb h).
  Hypothesis Hn : n <= W / 2.
  Hypothesis Vs : forall p q r s, p < n -> q < n -> r < n -> s < n ->
     V_pqrs h p q r s = V_pqrs h r s p q.
  Notation Hm := (ham W n (T_pq h) (V_pqrs h)).
  Variables (dbg : bool) (st : settings) (E0 : Qc) (C : list Qc) (cdets : list N).
  Notation tol := (h_el_tol st).
  Hypothesis HC : length cdets <= length C.
  Hypothesis Hsp : forall D, In D cdets -> in_space W n D.
  Hypothesis Hdbg : dbg = true -> forall D, In D cdets -> bs_count (alpha W D) < n /\ bs_count (beta W D) < n.
  Hypothesis Hres : no_resonance_c W h tol E0 cdets C.
  Hypothesis Hpairs : at_most_pairs_c W h tol cdets C (pair_size_max st).
  Notation L := (length cdets).
  Notation Dj j := (nth j cdets 0%N).
  Notation cj j := (nth j C 0%Qc).
  Notation cc := (cc W h st E0 C cdets).
  Notation idx := (idx W cdets).
  Notation B := (B W h dbg C cdets).
  Notation ck con j := (ckept W h tol (cj j) (Dj j) con).

  (* all contributions, states and pairs of a constraint *)
  Definition call con : list contrib := flat_map (cc con) (seq 0 L).
  Definition cpairs con : list (nat * N) := flat_map (fun j => map (pair j) (ck con j)) (seq 0 L).
  Lemma call_len con : length (call con) = length (cpairs con).
  Proof.
    unfold call, cpairs. induction (seq 0 L) as [|j l IH]; auto. cbn [flat_map]. rewrite !app_length, IH.
    unfold ConstraintSearch2.cc, ccontribs. rewrite !map_length. reflexivity.
  Qed.
  Lemma cpairs_In con j t : valid_con n con ->
    In (j, t) (cpairs con) <-> contributes_at W h tol cdets C j t /\ meets con (alpha W t).
  Proof.
    intros Hc. unfold cpairs. rewrite in_flat_map. split.
    - intros (k & Hk & I). apply in_map_iff in I. destruct I as (u & E & I). injection E as <- <-.
      apply in_seq in Hk. apply (ck_In W HW h Hn st C cdets) in I; auto. lia.
    - intros [H M]. exists j. split; [apply in_seq; destruct H; lia|]. apply in_map.
      apply (ck_In W HW h Hn st C cdets); auto. destruct H; auto.
  Qed.
  Lemma cpairs_NoDup con : valid_con n con -> NoDup (cpairs con).
  Proof.
    intros Hc. unfold cpairs. apply NoDup_flat_map.
    - apply seq_NoDup.
    - intros j Hj. apply NoDup_map_inj; [intros; congruence|]. apply in_seq in Hj.
      apply (ckept_NoDup W HW h Hn); auto. apply Hsp, nth_In. lia.
    - intros j k [i t] _ _ I1 I2. apply in_map_iff in I1, I2. destruct I1 as (? & E1 & _), I2 as (? & E2 & _). congruence.
  Qed.
  Lemma call_state con t : valid_con n con ->
    In t (map fst (call con)) <-> (exists j, contributes_at W h tol cdets C j t) /\ meets con (alpha W t).
  Proof.
    intros Hc. unfold call. rewrite in_map_iff. split.
    - intros ([u x] & <- & I). apply in_flat_map in I. destruct I as (j & Hj & I). apply in_seq in Hj.
      unfold ConstraintSearch2.cc, ccontribs in I. apply in_map_iff in I. destruct I as (u' & E & I). injection E as -> _.
      cbn [fst]. apply (ck_In W HW h Hn st C cdets Hsp) in I; auto; [|lia]. split; [exists j|]; tauto.
    - intros [[j H] M]. assert (Hj : j < L) by (destruct H; auto).
      exists (t, pt_coeff W h E0 (cj j) (Dj j) t). split; auto. apply in_flat_map. exists j. split; [apply in_seq; lia|].
      unfold ConstraintSearch2.cc, ccontribs. apply in_map_iff. exists t. split; auto.
      apply (ck_In W HW h Hn st C cdets Hsp); auto.
  Qed.
  (* the value the search reports for a state *)
  Lemma score_call con t : valid_con n con -> meets con (alpha W t) ->
    is_score_c W h tol E0 cdets C t (score (call con) t).
  Proof.
    intros Hc M. unfold call.
    assert (E : forall l, (forall j, In j l -> j < L) -> score (flat_map (cc con) l) t =
      sum l (fun j => if in_dec N.eq_dec t (ck con j) then pt_coeff W h E0 (cj j) (Dj j) t else 0%Qc)).
    { induction l as [|j l IH]; intros Hl; [reflexivity|]. cbn [flat_map sum]. rewrite score_app, IH by (intros; apply Hl; right; auto).
      f_equal. unfold ConstraintSearch2.cc, ccontribs. rewrite (score_map (fun u => pt_coeff W h E0 (cj j) (Dj j) u)).
      - reflexivity.
      - apply (ckept_NoDup W HW h Hn); auto. apply Hsp, nth_In, Hl. left; auto. }
    rewrite E by (intros j Hj; apply in_seq in Hj; lia). clear E.
    exists (filter (fun k => if in_dec N.eq_dec t (ck con k) then true else false) (seq 0 L)).
    split; [apply NoDup_filter, seq_NoDup|]. split.
    - intros j. rewrite filter_In, in_seq. split.
      + intros [Hj I]. destruct (in_dec N.eq_dec t (ck con j)) as [I'|]; [|discriminate].
        apply (ck_In W HW h Hn st C cdets Hsp) in I'; auto; [tauto|lia].
      + intros H. assert (Hj : j < L) by (destruct H; auto). split; [lia|].
        destruct (in_dec N.eq_dec t (ck con j)) as [I'|I']; auto. exfalso. apply I'.
        apply (ck_In W HW h Hn st C cdets Hsp); auto.
    - rewrite sum_filter. apply sum_ext. intros j _. destruct (in_dec N.eq_dec t (ck con j)); reflexivity.
  Qed.
  Lemma is_score_c_unique t x y : is_score_c W h tol E0 cdets C t x -> is_score_c W h tol E0 cdets C t y -> x = y.
  Proof.
    intros (l1 & N1 & I1 & ->) (l2 & N2 & I2 & ->). apply sum_perm. apply NoDup_Permutation; auto.
    intros i. rewrite I1, I2. reflexivity.
  Qed.

  (* one constraint: the loop over alpha strings *)
  Lemma alpha_loop_ok con k ua : valid_con n con -> (forall al, In al ua -> wf n al) -> forall acc,
    length acc + length (flat_map (fun al => flat_map (cc con) (idx al)) ua) <= pair_size_max st ->
    always (con_alpha_loop W st h E0 con k (map (fun al => (al, map B (idx al))) ua) acc)
      (fun out => exists l, out = acc ++ l /\ Permutation l (flat_map (fun al => flat_map (cc con) (idx al)) ua)).
  Proof.
    intros Hc. induction ua as [|al ua IH]; intros Hw acc Hl; cbn [map con_alpha_loop flat_map] in *.
    - apply always_ret. exists []. rewrite app_nil_r. auto.
    - destruct (con_alpha_ok W HW h Hn Vs dbg st E0 C cdets HC Hsp Hdbg Hres con Hc al) as (l & E & P); [apply Hw; left; auto|].
      apply always_bind with (P := fun x => x = l); [eapply always_det; eauto|]. intros x ->.
      rewrite app_length in Hl. pose proof (Permutation_length P) as PL.
      apply always_bind with (P := fun x => x = acc ++ l).
      { unfold con_prune. rewrite app_length. destruct (Nat.ltb_spec (pair_size_max st) (length acc + length l)); [lia|].
        apply always_ret. reflexivity. }
      intros x ->. eapply always_weaken; [|apply IH].
      + cbn beta. intros out (l' & -> & P'). exists (l ++ l'). rewrite app_assoc. split; auto. apply Permutation_app; auto.
      + intros; apply Hw; right; auto.
      + rewrite app_length. lia.
  Qed.

  Section UA.
    Variable ua : list N.
    Hypothesis NU : NoDup ua.
    Hypothesis IU : forall a, In a ua <-> exists D, In D cdets /\ a = alpha W D.
    Notation uad := (map (fun al => (al, map B (idx al))) ua).
    Lemma ua_wf al : In al ua -> wf n al.
    Proof. intros H. apply IU in H. destruct H as (D & HD & ->). apply Hsp, HD. Qed.
    Lemma call_perm con : Permutation (flat_map (fun al => flat_map (cc con) (idx al)) ua) (call con).
    Proof.
      apply partition_perm; auto. intros j Hj. apply in_seq in Hj. apply IU. exists (Dj j). split; auto. apply nth_In. lia.
    Qed.

    Definition done_ok (done : list constraint) (acc : list contrib) : Prop :=
      NoDup (map fst acc) /\
      (forall t x, In (t, x) acc <-> exists con, In con done /\ In t (map fst (call con)) /\ x = score (call con) t) /\
      length acc <= length (flat_map cpairs done).

    Lemma con_loop_ok cns : Forall (valid_con n) cns -> forall done acc,
      Forall (valid_con n) done -> (forall x, nm x (done ++ cns) <= 1) -> done_ok done acc ->
      always (con_loop W st h E0 uad cns acc) (done_ok (done ++ cns)).
    Proof.
      induction 1 as [|con cns Hc Hcs IH]; intros done acc Vd Hnm (D1 & D2 & D3); cbn [con_loop].
      - apply always_ret. rewrite app_nil_r. split; auto.
      - assert (NDp : NoDup (flat_map cpairs (done ++ [con]))).
        { assert (Vx : Forall (valid_con n) (done ++ [con])) by (apply Forall_app; split; auto).
          assert (NM : forall x, nm x (done ++ [con]) <= 1).
          { intros x. specialize (Hnm x). rewrite nm_app in *. cbn [nm] in *. lia. }
          rewrite Forall_forall in Vx. apply NoDup_flat_map.
          - apply (nm_le_NoDup n); auto. apply Forall_forall; auto.
          - intros c I. apply cpairs_NoDup; auto.
          - intros c c' [j t] I I' P P'. apply cpairs_In in P; auto. apply cpairs_In in P'; auto.
            destruct P as [_ P], P' as [_ P'].
            apply in_split in I. destruct I as (m1 & m2 & Em).
            pose proof (nm_disjoint n (alpha W t) (done ++ [con]) ltac:(apply Forall_forall; auto) (NM _) m1 c m2 Em P) as Dj'.
            rewrite Em in I'. apply in_app_or in I'. destruct I' as [I'|[I'|I']]; auto; exfalso; apply (Dj' c'); auto;
              apply in_or_app; auto. }
        assert (LB : length acc + length (call con) <= pair_size_max st).
        { rewrite call_len. rewrite flat_map_app in NDp. cbn [flat_map] in NDp. rewrite app_nil_r in NDp.
          assert (length (flat_map cpairs done ++ cpairs con) <= pair_size_max st); [|rewrite app_length in *; lia].
          apply Hpairs; auto. intros j t I. apply in_app_or in I. destruct I as [I|I].
          - apply in_flat_map in I. destruct I as (c & Ic & I). rewrite Forall_forall in Vd. apply cpairs_In in I; auto. tauto.
          - apply cpairs_In in I; auto. tauto. }
        pose proof (Permutation_length (call_perm con)) as PL.
        eapply always_bind; [apply (alpha_loop_ok con (length acc) ua Hc ua_wf acc); lia|].
        cbn beta. intros l (m & -> & P). rewrite call_perm in P.
        apply always_bind with (P := fun out => exists r, out = acc ++ r /\ StronglySorted N.lt (map fst r) /\
           (forall s, In s (map fst r) <-> In s (map fst (call con))) /\ forall s v, In (s, v) r -> v = score (call con) s).
        { unfold accumulate_from. rewrite app_length. destruct (Nat.ltb_spec (length acc + length m) (length acc)); [lia|].
          rewrite firstn_len, skipn_len.
          assert (MS : forall s, In s (map fst m) <-> In s (map fst (call con))).
          { intros s. split; intros I; [eapply Permutation_in; [apply Permutation_map, P|exact I]|
              eapply Permutation_in; [apply Permutation_map, Permutation_sym, P|exact I]]. }
          eapply always_bind.
          - apply sort_acc_ok. intros s I. apply MS, call_state in I; auto. destruct I as [[j [_ [[G _] _]]] _].
            apply (in_space_wf W n); auto.
          - cbn beta. intros r (R1 & R2 & R3). apply always_ret. exists r. split; auto. split; auto. split.
            + intros s. rewrite R2. apply MS.
            + intros s v I. rewrite (R3 s v I). apply score_perm, P. }
        cbn beta. intros out (r & -> & R1 & R2 & R3).
        replace (done ++ con :: cns) with ((done ++ [con]) ++ cns) by (rewrite <- app_assoc; reflexivity).
        apply IH.
        + apply Forall_app. split; auto.
        + intros x. rewrite <- app_assoc. apply Hnm.
        + split; [|split].
          * rewrite map_app. apply NoDup_app; auto.
            { clear - R1. induction R1 as [|a l S IH F]; constructor; auto. intros I. rewrite Forall_forall in F. specialize (F a I). lia. }
            intros t I I'. apply in_map_iff in I. destruct I as ([t' x] & Et & I). cbn in Et. subst t'.
            apply D2 in I. destruct I as (c & Ic & I & _). rewrite Forall_forall in Vd.
            apply call_state in I; auto. apply R2, call_state in I'; auto. destruct I as [_ I], I' as [_ I'].
            apply in_split in Ic. destruct Ic as (m1 & m2 & ->).
            refine (nm_disjoint n (alpha W t) _ _ (Hnm _) m1 c (m2 ++ con :: cns) _ I con _ I').
            { apply Forall_app. split; [apply Forall_forall; auto|constructor; auto]. }
            { rewrite <- app_assoc. reflexivity. }
            { rewrite !in_app_iff. cbn [In]. auto. }
          * intros t x. rewrite in_app_iff, D2. split.
            { intros [(c & Ic & I)|I].
              - exists c. split; auto. apply in_or_app; auto.
              - exists con. split; [apply in_or_app; right; left; auto|]. split; [|apply R3, I].
                apply R2. apply in_map_iff. exists (t, x). auto. }
            { intros (c & Ic & I & ->). apply in_app_or in Ic. destruct Ic as [Ic|[<-|[]]]; [left; eauto|].
              right. apply R2 in I. apply in_map_iff in I. destruct I as ([t' v] & Et & I). cbn in Et. subst t'.
              rewrite <- (R3 t v I). exact I. }
          * rewrite app_length, flat_map_app, app_length. cbn [flat_map]. rewrite app_nil_r, <- call_len.
            assert (length r <= length (call con)); [|lia].
            rewrite <- (map_length fst r), <- (map_length fst (call con)). apply NoDup_incl_length.
            { clear - R1. induction R1 as [|a l S IH F]; constructor; auto. intros I. rewrite Forall_forall in F. specialize (F a I). lia. }
            { intros s I. apply R2, I. }
    Qed.
  End UA.

  Lemma unique_alphas_ok : always (unique_alphas W cdets) (fun ua => NoDup ua /\
    forall a, In a ua <-> exists D, In D cdets /\ a = alpha W D).
  Proof.
    unfold unique_alphas. eapply always_bind.
    - apply (sort_on _ N.ltb).
      + intros x y Hx Hy. apply in_map_iff in Hx, Hy. destruct Hx as (D & <- & HD), Hy as (D' & <- & HD').
        rewrite !(alpha_part_ok W HW). rewrite bitset_less_ok; auto.
        * intros k Hk. apply (Hsp D HD). pose proof (nW W HW h Hn). lia.
        * intros k Hk. apply (Hsp D' HD'). pose proof (nW W HW h Hn). lia.
      + intros x y H. apply N.ltb_lt in H. apply N.ltb_ge. lia.
      + intros x y z H1 H2. apply N.ltb_ge in H1, H2. apply N.ltb_ge. lia.
    - cbn beta. intros s [P Q]. apply always_ret.
      assert (Q' : StronglySorted N.le s).
      { clear - Q. induction Q as [|a l S IH F]; constructor; auto. rewrite Forall_forall in *. intros y Hy. apply N.ltb_ge, F, Hy. }
      assert (I : forall a, In a s <-> exists D, In D cdets /\ a = alpha W D).
      { intros a. split.
        - intros I. apply (Permutation_in a (Permutation_sym P)) in I. apply in_map_iff in I. destruct I as (D & <- & HD).
          exists D. split; auto. apply alpha_part_ok; auto.
        - intros (D & HD & ->). apply (Permutation_in _ P). apply in_map_iff. exists D. split; auto. apply alpha_part_ok; auto. }
      destruct s as [|x r]; cbn [std_unique].
      + split; [constructor|exact I].
      + split; [apply unique_from_NoDup, Q'|]. intros a. rewrite unique_from_In. apply I.
  Qed.

  Variables (level world : nat).
  Hypothesis Hw : 0 < world.
  Hypothesis Hne : cdets <> [].

  Definition covered (t : N) := forall j, contributes_at W h tol cdets C j t -> 3 + level <= bs_count (alpha W t).

  Lemma search_c_ok :
    always (asci_contributions_constraint dbg W st level h E0 C cdets world) (fun outs =>
      length outs = world /\ NoDup (map fst (concat outs)) /\
      (forall t x, In (t, x) (concat outs) -> is_score_c W h tol E0 cdets C t x /\
         (exists j, contributes_at W h tol cdets C j t) /\ 3 <= bs_count (alpha W t)) /\
      (forall t j, contributes_at W h tol cdets C j t -> 3 + level <= bs_count (alpha W t) ->
         In t (map fst (concat outs)))).
  Proof.
    unfold asci_contributions_constraint. eapply always_bind; [apply unique_alphas_ok|]. cbn beta. intros ua (NU & IU).
    apply always_bind with (P := fun uad => uad = map (fun al => (al, map B (idx al))) ua).
    { eapply always_det; [|reflexivity]. apply mapM_ok. intros al Hal. apply IU in Hal. destruct Hal as (D & HD & ->).
      apply (In_nth _ _ 0%N) in HD. destruct HD as (j & Hj & Ej).
      rewrite (alpha_data_ok W HW h Hn Vs dbg C cdets HC Hsp Hdbg); [reflexivity|]. exists j. rewrite Ej. auto. }
    intros uad ->. destruct ua as [|a0 ua'] eqn:Eu.
    { exfalso. destruct cdets as [|D r]; [congruence|]. apply (proj2 (IU (alpha W D))). exists D. split; auto. left; auto. }
    rewrite <- Eu in *. clear Eu. pose proof (spin_width_half W HW) as WH.
    assert (W128 : W <= 128) by (destruct HW as [-> | ->]; lia).
    set (ns := bs_count a0 * (n - bs_count a0)). cbv zeta. fold ns.
    set (nd' := ns * (ns + 1 - n) / 4).
    eapply always_bind.
    { apply (dist_ok W n ns nd' ua level world); auto; try lia.
      intros al Hal. apply IU in Hal. destruct Hal as (D & HD & ->). apply Hsp, HD. }
    intros ranks (R1 & R2 & R3 & R4 & _).
    assert (FV : Forall (valid_con n) (concat ranks)) by (apply Forall_forall; intros c Hc; apply R2, Hc).
    eapply always_weaken; [|apply mapND_always with (R := fun cs out => done_ok cs out)].
    2:{ intros cs Hcs. apply (con_loop_ok ua NU IU cs) with (done := []); auto.
        - rewrite Forall_forall in *. intros c Hc. apply FV. apply in_concat. eauto.
        - intros x. cbn [app]. specialize (R3 x). apply in_split in Hcs. destruct Hcs as (r1 & r2 & ->).
          rewrite concat_app in R3. cbn [concat] in R3. rewrite !nm_app in R3. lia.
        - split; [constructor|]. split; [|cbn; lia]. intros t x. split; [intros []|]. intros (c & [] & _). }
    cbn beta. intros outs F.
    assert (LO : length outs = world) by (rewrite <- R1; clear - F; induction F; cbn; congruence).
    assert (IN : forall t x, In (t, x) (concat outs) <->
       exists con, In con (concat ranks) /\ In t (map fst (call con)) /\ x = score (call con) t).
    { clear - F. intros t x. induction F as [|cs out ranks outs (_ & D2 & _) F IH]; cbn [concat].
      - split; [intros []|]. intros (c & [] & _).
      - rewrite in_app_iff, IH, D2. split.
        + intros [(c & I & X)|(c & I & X)]; exists c; split; auto; apply in_or_app; auto.
        + intros (c & I & X). apply in_app_or in I. destruct I; [left|right]; eauto. }
    split; auto. split; [|split].
    - assert (ND : forall rs, Forall (valid_con n) (concat rs) -> (forall x, nm x (concat rs) <= 1) -> forall os,
          Forall2 (fun cs out => done_ok cs out) rs os -> NoDup (map fst (concat os))).
      { clear - HC Hsp Hn HW. intros rs V M os F. induction F as [|cs out rs os HD F IH]; cbn [concat map] in *; [constructor|].
        pose proof HD as (D1 & D2 & _).
        rewrite map_app. apply Forall_app in V. destruct V as [V1 V2]. apply NoDup_app; auto.
        - apply IH; auto. intros x. specialize (M x). rewrite nm_app in M. lia.
        - intros t I I'. apply in_map_iff in I, I'. destruct I as ([t1 x1] & E1 & I), I' as ([t2 x2] & E2 & I'). cbn in E1, E2. subst t1 t2.
          apply D2 in I. destruct I as (c & Ic & I & _).
          assert (X : exists con, In con (concat rs) /\ In t (map fst (call con))).
          { clear - F I'. induction F as [|cs out rs os (_ & D2 & _) F IH]; cbn [concat] in *; [destruct I'|].
            apply in_app_or in I'. destruct I' as [I'|I'].
            - apply D2 in I'. destruct I' as (c & Ic & I & _). exists c. split; auto. apply in_or_app; auto.
            - destruct (IH I') as (c & Ic & I). exists c. split; auto. apply in_or_app; auto. }
          destruct X as (c' & Ic' & J). rewrite Forall_forall in V1, V2.
          apply call_state in I; auto. apply call_state in J; auto. destruct I as [_ I], J as [_ J].
          rewrite <- (sat_ok n) in I, J by auto. specialize (M (alpha W t)). rewrite nm_app in M.
          pose proof (nm_ge _ _ _ Ic I). pose proof (nm_ge _ _ _ Ic' J). lia. }
      apply (ND ranks); auto.
    - intros t x I. apply IN in I. destruct I as (c & Ic & I & ->). rewrite Forall_forall in FV.
      apply call_state in I; auto. destruct I as [[j Hj] M]. split; [|split; [eauto|apply (valid_count n c); auto]]. apply score_call; auto.
    - intros t j Hj Hcount. pose proof Hj as [Lj [[Gt Lk] _]].
      assert (X : nm (alpha W t) (concat ranks) = 1).
      { apply R4; auto.
        - apply Gt.
        - assert (Ia : In (alpha W (Dj j)) ua) by (apply IU; exists (Dj j); split; auto; apply nth_In, Lj).
          destruct Lk as [Lk|[_ Lk]]; [apply spin_moves_1 in Lk|apply spin_moves_2 in Lk].
          + destruct Lk as [[M _]|[M _]]; [exists (alpha W (Dj j)), 1; auto|].
            exists (alpha W (Dj j)), 0. split; auto. split; [lia|]. rewrite M. apply moves_0. reflexivity.
          + destruct Lk as [[M _]|[[M _]|[M _]]]; [exists (alpha W (Dj j)), 2; auto| |exists (alpha W (Dj j)), 1; auto].
            exists (alpha W (Dj j)), 0. split; auto. split; [lia|]. rewrite M. apply moves_0. reflexivity. }
      apply nm_1 in X. destruct X as (l1 & c & l2 & Ec & Sc & _).
      assert (Ic : In c (concat ranks)) by (rewrite Ec; apply in_or_app; right; left; auto).
      rewrite Forall_forall in FV. apply (sat_ok n) in Sc; auto.
      apply in_map_iff. exists (t, score (call c) t). split; auto. apply IN. exists c. split; auto. split; auto.
      apply call_state; auto. split; eauto.
  Qed.
End LOOP.

(** Whatever the parallel search returns: distinct determinants of the space with the
    electrons of the core, without the hypotheses about resonances and sizes of C54. *)
From Coq Require Import QArith Qcanon Sorting.Permutation Sorting.Sorted.
From Verif Require Import Base Nondet Bits BitsProofs SD Spec SDProofs SDProofs2 SDProofs3 SDProofs4 SDProofs5 Sums
  FockSpec FockProofs SlaterCondon Ham
  HamProofs HamProofs2 HamProofs3 HamProofs4 HamProofs5 HamProofs6 HamProofs7 HamProofs8 PropsHamGlue
  Asci AsciSpec AsciSort AsciContrib AsciContrib2 AsciSearch AsciSearch2 AsciSearch3 AsciIter
  Constraint ConstraintSpec ConstraintProofs ConstraintProofs2 ConstraintProofs3 ConstraintDist ConstraintDist2 ConstraintGlue ConstraintContrib ConstraintSearch ConstraintSearch2 ConstraintSearch3
  Collective CollectiveSpec CollectiveProofs QuickProofs AsciMpi AsciMpiProofs.
Local Open Scope nat_scope.

Lemma mapND_returns {A B} (f : A -> nd B) (R : A -> B -> Prop) l :
  (forall a, In a l -> if_returns (f a) (R a)) -> if_returns (mapND f l) (Forall2 R l).
Proof.
  induction l as [|a l IH]; intros H; cbn [mapND].
  - apply returns_ret. constructor.
  - apply returns_bind with (P := R a); [apply H; left; auto|]. intros b Hb.
    eapply returns_bind; [apply IH; intros; apply H; right; auto|]. intros bs Hbs. apply returns_ret. constructor; auto.
Qed.
Lemma mapM_Forall2 {A B} (f : A -> res B) l : forall l', mapM f l = Ok l' -> Forall2 (fun a b => f a = Ok b) l l'.
Proof.
  induction l as [|a l IH]; intros l' H; cbn [mapM] in H; [injection H as <-; constructor|].
  destruct (f a) as [b|] eqn:E; [|discriminate]. cbn [bind] in H. destruct (mapM f l) as [bs|]; [|discriminate]. cbn [bind] in H.
  injection H as <-. constructor; auto.
Qed.
Lemma Forall2_in_r {A B} (R : A -> B -> Prop) l l' b : Forall2 R l l' -> In b l' -> exists a, In a l /\ R a b.
Proof.
  induction 1 as [|x y l l' H F IH]; intros Hb; [destruct Hb|]. destruct Hb as [<-|Hb]; [exists x; split; [left; auto|exact H]|].
  destruct (IH Hb) as (a & Ia & Ra). exists a. split; [right; auto|exact Ra].
Qed.
Lemma mapM_in {A B} (f : A -> res B) l l' b : mapM f l = Ok l' -> In b l' -> exists a, In a l /\ f a = Ok b.
Proof. intros H. apply (Forall2_in_r _ _ _ b (mapM_Forall2 f l l' H)). Qed.

Section LOOP.
  Variables (W : nat) (HW : spin_width W) (h : ints).
  Notation n := (norb h).
  Hypothesis Hn : n <= W / 2.
  Hypothesis Vs : forall p q r s, p < n -> q < n -> r < n -> s < n ->
     V_pqrs h p q r s = V_pqrs h r s p q.
  Notation Hm := (ham W n (T_pq h) (V_pqrs h)).
  Variables (dbg : bool) (st : settings) (E0 : Qc) (C : list Qc) (cdets : list N).
  Notation tol := (h_el_tol st).
  Hypothesis HC : length cdets <= length C.
  Hypothesis Hsp : forall D, In D cdets -> in_space W n D.
  Hypothesis Hdbg : dbg = true -> forall D, In D cdets -> bs_count (alpha W D) < n /\ bs_count (beta W D) < n.
  Notation L := (length cdets).
  Notation Dj j := (nth j cdets 0%N).
  Notation cj j := (nth j C 0%Qc).
  Notation idx := (idx W cdets).
  Notation B := (B W h dbg C cdets).
  Notation ck con j := (ckept W h tol (cj j) (Dj j) con).

  Lemma runc_returns c D P l out s : runc W h E0 c D P l = Ok out -> In s (map fst out) -> In s l /\ P s = true.
  Proof.
    unfold runc. destruct (existsb _ l); [discriminate|]. intros E. injection E as <-. rewrite map_map. cbn [fst]. rewrite map_id. apply filter_In.
  Qed.

  (* the state is reached from a core determinant and belongs to the constraint *)
  Definition from (con : constraint) (t : N) : Prop := (exists j, contributes_at W h tol cdets C j t) /\ meets con (alpha W t).

  Lemma con_alpha_returns con al l : valid_con n con -> wf n al ->
    con_alpha_contrib W h tol E0 con al (map B (idx al)) = Ok l -> forall t, In t (map fst l) -> from con t.
  Proof.
    intros Hc Hal. unfold con_alpha_contrib. pose proof (nW W HW h Hn) as NW.
    rewrite full_mask_ok by auto. cbn [bind].
    rewrite bits_to_indices_ok by (intros k Hk; apply Hal; lia). rewrite (positions_wf n W) by auto. cbn [bind].
    assert (HI : forall j, In j (idx al) -> j < L /\ alpha W (Dj j) = al).
    { intros j Hj. apply filter_In in Hj. rewrite in_seq in Hj. destruct Hj as [Hj E]. apply N.eqb_eq in E. split; auto. lia. }
    assert (FIN : forall j t, In j (idx al) -> In t (ck con j) -> from con t).
    { intros j t Hj Ht. destruct (HI j Hj) as [Lj _]. apply (ck_In W HW h Hn st C cdets Hsp con Hc j t Lj) in Ht. destruct Ht as [A M]. split; [exists j; exact A|exact M]. }
    rewrite !mapM_map.
    match goal with |- (do l1 <- ?m1; _) = _ -> _ => destruct m1 as [l1|] eqn:E1; [cbn [bind]|discriminate] end.
    match goal with |- (do l2 <- ?m1; _) = _ -> _ => destruct m1 as [l2|] eqn:E2; [cbn [bind]|discriminate] end.
    match goal with |- (do l3 <- ?m1; _) = _ -> _ => destruct m1 as [l3|] eqn:E3; [cbn [bind]|discriminate] end.
    match goal with |- (do l4 <- ?m1; _) = _ -> _ => destruct m1 as [l4|] eqn:E4; [cbn [bind]|discriminate] end.
    intros E. injection E as <-. intros t Ht. rewrite !map_app, !in_app_iff in Ht.
    destruct Ht as [Ht|[Ht|[Ht|Ht]]]; apply in_map_iff in Ht; destruct Ht as (x & <- & Ht); apply in_concat in Ht; destruct Ht as (y & Iy & Ix); apply (in_map fst) in Ix.
    - destruct (mapM_in _ _ _ _ E1 Iy) as (j & Hj & Ej). apply (FIN j); [exact Hj|]. destruct (HI j Hj) as [Lj Ea].
      destruct (B_ok W HW h Hn Vs dbg C cdets HC Hsp Hdbg j Lj) as [_ (G1 & G2 & G3 & G4 & G5 & G6 & G7)].
      rewrite G1, G2, G3, G7 in Ej. rewrite <- Ea in Ej.
      pose proof (csingles_ok W HW h Hn Vs tol E0 (cj j) (Dj j) (Dj_space W h cdets Hsp j Lj) con Hc _ G5) as X. cbn [str] in *. rewrite X in Ej.
      destruct (runc_returns _ _ _ _ _ _ Ej Ix) as [It Pt]. unfold ckept. rewrite !in_app_iff, !filter_In. auto.
    - destruct (mapM_in _ _ _ _ E2 Iy) as (j & Hj & Ej). apply (FIN j); [exact Hj|]. destruct (HI j Hj) as [Lj Ea].
      destruct (B_ok W HW h Hn Vs dbg C cdets HC Hsp Hdbg j Lj) as [_ (G1 & G2 & G3 & G4 & G5 & G6 & G7)].
      rewrite G1, G2, G7 in Ej. rewrite <- Ea in Ej.
      pose proof (css_ok W HW h Hn Vs tol E0 (cj j) (Dj j) (Dj_space W h cdets Hsp j Lj) con Hc _ G5) as X. cbn [str] in *. rewrite X in Ej.
      destruct (runc_returns _ _ _ _ _ _ Ej Ix) as [It Pt]. unfold ckept. rewrite !in_app_iff, !filter_In. auto.
    - destruct (mapM_in _ _ _ _ E3 Iy) as (j & Hj & Ej). apply (FIN j); [exact Hj|]. destruct (HI j Hj) as [Lj Ea].
      destruct (B_ok W HW h Hn Vs dbg C cdets HC Hsp Hdbg j Lj) as [_ (G1 & G2 & G3 & G4 & G5 & G6 & G7)].
      rewrite G1, G2, G3, G4, G7 in Ej. rewrite <- Ea in Ej.
      pose proof (cos_ok W HW h Hn Vs tol E0 (cj j) (Dj j) (Dj_space W h cdets Hsp j Lj) con Hc _ _ G5 G6) as X. cbn [str] in *. rewrite X in Ej.
      destruct (runc_returns _ _ _ _ _ _ Ej Ix) as [It Pt]. unfold ckept. rewrite !in_app_iff, !filter_In. auto.
    - destruct (satisfies_constraint al (con_C con) (con_min con)) eqn:SA; [|injection E4 as <-; destruct Iy].
      destruct (mapM_in _ _ _ _ E4 Iy) as (j & Hj & Ej). apply (FIN j); [exact Hj|]. destruct (HI j Hj) as [Lj Ea].
      destruct (B_ok W HW h Hn Vs dbg C cdets HC Hsp Hdbg j Lj) as [_ (G1 & G2 & G3 & G4 & G5 & G6 & G7)]. cbv zeta in Ej. rewrite G1, G2, G3, G4, G7 in Ej.
      assert (EH : bitset_hi_word W (bs_shl W (str W true (Dj j)) (W / 2)) = str W true (Dj j)).
      { rewrite <- beta_hi.
        - apply tb_ext. intros k. change (tb (str W true (bs_shl W (str W true (Dj j)) (W / 2))) k = tb (str W true (Dj j)) k).
          rewrite tb_str_all. unfold so. cbn [orb andb]. rewrite tb_bs_shl. pose proof (spin_width_half W HW).
          destruct (Nat.ltb_spec (k + W / 2) W), (Nat.leb_spec (W / 2) (k + W / 2)); try lia; cbn [andb].
          + f_equal. lia.
          + symmetry. assert (WB : wf n (str W true (Dj j))) by apply (Dj_space W h cdets Hsp j Lj). apply WB. lia.
        - auto.
        - intros k Hk. rewrite tb_bs_shl. destruct (Nat.ltb_spec k W); [lia|reflexivity]. }
      rewrite EH in Ej. pose proof (D_join W HW h Hn (Dj j) (Dj_space W h cdets Hsp j Lj)) as DJ. rewrite <- Ea in Ej.
      cbn [str] in DJ, Ej. rewrite DJ in Ej.
      pose proof (singles_loop W HW h Hn Vs tol E0 (cj j) (Dj j) (Dj_space W h cdets Hsp j Lj) true _ G6) as X1.
      pose proof (ss_loop W HW h Hn Vs tol E0 (cj j) (Dj j) (Dj_space W h cdets Hsp j Lj) true _ G6) as X2.
      cbn [negb str shift_of] in X1, X2. rewrite X1, X2 in Ej.
      assert (ST : sat (str W false (Dj j)) con = true) by (unfold sat; cbn [str]; rewrite Ea; exact SA).
      destruct (run W h tol E0 (cj j) (Dj j) (T1 W h (Dj j) true)) as [m1|] eqn:R1; [cbn [bind] in Ej|discriminate].
      destruct (run W h tol E0 (cj j) (Dj j) (T2 W h (Dj j) true)) as [m2|] eqn:R2; [cbn [bind] in Ej|discriminate].
      injection Ej as <-. rewrite map_app, in_app_iff in Ix. unfold ckept. rewrite ST. rewrite !in_app_iff, !filter_In.
      destruct Ix as [Ix|Ix]; [destruct (runc_returns _ _ (big W h tol (Dj j)) _ _ _ R1 Ix)|destruct (runc_returns _ _ (big W h tol (Dj j)) _ _ _ R2 Ix)]; auto 8.
  Qed.

  Definition meets_one (cns : list constraint) (t : N) : Prop := exists con, In con cns /\ from con t.
  Lemma from_wf con t : from con t -> wf W t.
  Proof. intros [[j [_ [[G _] _]]] _]. apply (in_space_wf W n); auto. Qed.
  Lemma accumulate_states k l (P : N -> Prop) : (forall t, P t -> wf W t) -> (forall t, In t (map fst l) -> P t) ->
    if_returns (accumulate_from W k l) (fun out => forall t, In t (map fst out) -> P t).
  Proof.
    intros HP H. unfold accumulate_from. destruct (length l <? k); [apply returns_det; discriminate|].
    assert (HF : forall t, In t (map fst (firstn k l)) -> P t).
    { intros t Ht. apply H. rewrite <- (firstn_skipn k l), map_app, in_app_iff. auto. }
    assert (HS : forall t, In t (map fst (skipn k l)) -> P t).
    { intros t Ht. apply H. rewrite <- (firstn_skipn k l), map_app, in_app_iff. auto. }
    eapply returns_bind; [apply always_returns, sort_acc_ok; intros s Hs; apply HP, HS, Hs|]. cbn beta. intros r (_ & R & _).
    apply returns_ret. intros t Ht. rewrite map_app, in_app_iff in Ht. destruct Ht as [Ht|Ht]; [apply HF, Ht|apply HS, R, Ht].
  Qed.
  Lemma partition_states {X} (p : X -> bool) l : if_returns (std_partition p l) (fun r => forall x, In x (fst r) -> In x l).
  Proof.
    intros [a b] (l1 & l2 & E & P & _). injection E as -> ->. cbn [fst]. intros x Hx. apply (Permutation_in x (Permutation_sym P)), in_or_app. auto.
  Qed.
  Lemma prune_states_c k l (P : N -> Prop) : (forall t, P t -> wf W t) -> (forall t, In t (map fst l) -> P t) ->
    if_returns (con_prune W st k l) (fun out => forall t, In t (map fst out) -> P t).
  Proof.
    intros HP H. unfold con_prune. destruct (pair_size_max st <? length l); [|apply returns_ret; exact H].
    eapply returns_bind; [apply partition_states|]. cbn beta. intros [a b] Hab. cbn [fst] in *.
    assert (Ha : forall t, In t (map fst a) -> P t).
    { intros t Ht. apply in_map_iff in Ht. destruct Ht as (x & <- & Hx). apply H, in_map, Hab, Hx. }
    destruct (pair_size_max st <? length a); [apply accumulate_states; assumption|apply returns_ret; exact Ha].
  Qed.
  Lemma alpha_loop_returns con k ua (P : N -> Prop) : valid_con n con -> (forall al, In al ua -> wf n al) ->
    (forall t, P t -> wf W t) -> (forall t, from con t -> P t) -> forall acc, (forall t, In t (map fst acc) -> P t) ->
    if_returns (con_alpha_loop W st h E0 con k (map (fun al => (al, map B (idx al))) ua) acc) (fun out => forall t, In t (map fst out) -> P t).
  Proof.
    intros Hc Hua HP HF. induction ua as [|al ua IH]; intros acc Ha; cbn [map con_alpha_loop]; [apply returns_ret; exact Ha|].
    eapply returns_bind; [apply returns_det; intros l El; exact (con_alpha_returns con al l Hc (Hua al ltac:(left; auto)) El)|].
    cbn beta. intros l Hl. eapply returns_bind; [apply (prune_states_c k (acc ++ l) P HP)|].
    { intros t Ht. rewrite map_app, in_app_iff in Ht. destruct Ht; auto. }
    cbn beta. intros acc' Ha'. apply IH; [intros; apply Hua; right; auto|exact Ha'].
  Qed.
  Lemma con_loop_returns ua cns0 : (forall al, In al ua -> wf n al) -> forall cns acc, Forall (valid_con n) cns -> incl cns cns0 ->
    (forall t, In t (map fst acc) -> meets_one cns0 t) ->
    if_returns (con_loop W st h E0 (map (fun al => (al, map B (idx al))) ua) cns acc) (fun out => forall t, In t (map fst out) -> meets_one cns0 t).
  Proof.
    intros Hua. assert (HP : forall t, meets_one cns0 t -> wf W t) by (intros t (c & _ & F); exact (from_wf c t F)).
    induction cns as [|con cns IH]; intros acc V I Ha; cbn [con_loop]; [apply returns_ret; exact Ha|].
    inversion V as [|? ? V1 V2]; subst.
    eapply returns_bind; [apply (alpha_loop_returns con (length acc) ua (meets_one cns0) V1 Hua HP)|].
    { intros t F. exists con. split; [apply I; left; auto|exact F]. }
    { exact Ha. }
    cbn beta. intros l Hl. eapply returns_bind; [apply (accumulate_states _ l _ HP Hl)|]. cbn beta. intros acc' Ha'.
    apply IH; [exact V2| |exact Ha']. intros c Ic. apply I. right. exact Ic.
  Qed.

  Variables (level world : nat).
  Hypothesis Hw : 0 < world.

  (* every rank's states come from the core, and no state is found on two ranks *)
  Definition found (outs : list (list contrib)) : Prop :=
    length outs = world /\ (forall t, In t (map fst (concat outs)) -> exists j, contributes_at W h tol cdets C j t) /\
    forall l1 o l2 t, outs = l1 ++ o :: l2 -> In t (map fst o) -> ~ In t (map fst (concat (l1 ++ l2))).

  Lemma search_returns : if_returns (asci_contributions_constraint dbg W st level h E0 C cdets world) found.
  Proof.
    unfold asci_contributions_constraint. eapply returns_bind; [apply always_returns, (unique_alphas_ok W HW h Hn C cdets HC Hsp)|]. cbn beta. intros ua (NU & IU).
    eapply returns_bind with (P := fun uad => uad = map (fun al => (al, map B (idx al))) ua).
    { apply always_returns. eapply always_det; [|reflexivity]. apply mapM_ok. intros al Hal. apply IU in Hal. destruct Hal as (D & HD & ->).
      apply (In_nth _ _ 0%N) in HD. destruct HD as (j & Hj & Ej).
      rewrite (alpha_data_ok W HW h Hn Vs dbg C cdets HC Hsp Hdbg); [reflexivity|]. exists j. rewrite Ej. auto. }
    intros uad ->. assert (WU : forall al, In al ua -> wf n al) by (intros al Hal; apply IU in Hal; destruct Hal as (D & HD & ->); apply Hsp, HD).
    destruct ua as [|a0 ua'] eqn:Eu; [apply returns_det; discriminate|].
    rewrite <- Eu in *. clear Eu. pose proof (spin_width_half W HW) as WH.
    assert (W128 : W <= 128) by (destruct HW as [-> | ->]; lia).
    set (ns := bs_count a0 * (n - bs_count a0)). cbv zeta. fold ns.
    set (nd' := ns * (ns + 1 - n) / 4).
    eapply returns_bind.
    { apply always_returns, (dist_ok W n ns nd' ua level world); auto; try lia. }
    intros ranks (R1 & R2 & R3 & _ & _).
    assert (FV : Forall (valid_con n) (concat ranks)) by (apply Forall_forall; intros c Hc; apply R2, Hc).
    eapply returns_weaken; [|apply mapND_returns with (R := fun cs (out : list contrib) => forall t, In t (map fst out) -> meets_one cs t)].
    2:{ intros cs Hcs. apply (con_loop_returns ua cs WU cs []); [|apply incl_refl|intros t []].
        rewrite Forall_forall in *. intros c Hc. apply FV. apply in_concat. eauto. }
    cbn beta. intros outs F. split; [rewrite <- R1; symmetry; apply (Forall2_len _ _ _ F)|].
    assert (CC : forall rs (os : list (list contrib)), Forall2 (fun cs (out : list contrib) => forall t, In t (map fst out) -> meets_one cs t) rs os -> forall t, In t (map fst (concat os)) -> meets_one (concat rs) t).
    { clear. induction 1 as [|cs o rs os H F IH]; intros t Ht; [destruct Ht|]. cbn [concat] in *. rewrite map_app, in_app_iff in Ht.
      destruct Ht as [Ht|Ht]; [destruct (H t Ht) as (c & Ic & X)|destruct (IH t Ht) as (c & Ic & X)]; exists c; (split; [apply in_or_app; auto|exact X]). }
    split.
    - intros t Ht. destruct (CC _ _ F t Ht) as (c & _ & X & _). exact X.
    - intros l1 o l2 t -> Ht Ht'. apply Forall2_app_inv_r in F. destruct F as (rs1 & rs2' & F1 & F2 & ->). inversion F2 as [|r ? rs2 ? H F2' E1 E2]; subst.
      destruct (H t Ht) as (c & Ic & _ & M). destruct (CC (rs1 ++ rs2) (l1 ++ l2) (Forall2_app F1 F2') t Ht') as (c' & Ic' & _ & M').
      rewrite Forall_forall in FV.
      assert (I1 : In c (concat (rs1 ++ r :: rs2))) by (rewrite concat_app; cbn [concat]; rewrite !in_app_iff; auto).
      assert (I2 : In c' (concat (rs1 ++ r :: rs2))) by (rewrite concat_app in Ic' |- *; cbn [concat]; rewrite !in_app_iff in *; tauto).
      rewrite <- (sat_ok n) in M, M' by auto. specialize (R3 (alpha W t)). rewrite concat_app in R3. cbn [concat] in R3. rewrite !nm_app in R3.
      pose proof (nm_ge _ _ _ Ic M). rewrite concat_app in Ic'. pose proof (nm_ge _ _ _ Ic' M') as G. rewrite nm_app in G. lia.
  Qed.
End LOOP.

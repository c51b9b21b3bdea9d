(** Glue lemmas and examples for Props_Asci.v. *)
From Coq Require Import QArith Qcanon Sorting.Permutation Sorting.Sorted.
From Verif Require Import Base Nondet Bits BitsProofs SD Spec SDProofs SDProofs2 SDProofs3 SDProofs4 SDProofs5 Sums
  FockSpec FockProofs SlaterCondon Ham
  HamProofs HamProofs2 HamProofs3 HamProofs4 HamProofs5 HamProofs6 HamProofs7 HamProofs8 PropsHamGlue
  Asci AsciSpec AsciSort AsciContrib AsciContrib2 AsciSearch AsciSearch2 AsciSearch3 AsciIter.
Local Open Scope nat_scope.

Definition vsym (h : ints) : Prop :=
  forall p q r s, p < norb h -> q < norb h -> r < norb h -> s < norb h ->
     V_pqrs h p q r s = V_pqrs h r s p q.

Lemma core_forall dbg W h st E0 cdets :
  (forall D, In D cdets -> in_space W (norb h) D /\
     (dbg = true -> bs_count (alpha W D) < norb h /\ bs_count (beta W D) < norb h)) ->
  no_resonance W h (h_el_tol st) (just_singles st) E0 cdets ->
  Forall (core_ok W h dbg st E0) cdets.
Proof.
  intros H R. apply Forall_forall. intros D HD. destruct (H D HD). split; auto. split; auto.
  intros t Ht. apply (R D t HD Ht).
Qed.

Lemma c28 dbg W st h ndets_max cdets E0 C :
  spin_width W -> norb h <= W / 2 ->
  (forall p q r s, p < norb h -> q < norb h -> r < norb h -> s < norb h ->
     V_pqrs h p q r s = V_pqrs h r s p q) ->
  (forall D, In D cdets -> in_space W (norb h) D /\
     (dbg = true -> bs_count (alpha W D) < norb h /\ bs_count (beta W D) < norb h)) ->
  NoDup cdets -> length cdets <= length C -> length cdets <= ndets_max ->
  (N.of_nat ndets_max < 2 ^ 64)%N ->
  no_resonance W h (h_el_tol st) (just_singles st) E0 cdets ->
  at_most_pairs W h (h_el_tol st) (just_singles st) cdets (pair_size_max st) ->
  always (asci_search dbg W st h ndets_max cdets E0 C) (fun out =>
    exists sel, out = sel ++ cdets /\ NoDup out /\ length out <= ndets_max /\
      (forall t, In t sel -> in_space W (norb h) t /\
         exists x, is_score W h (h_el_tol st) (just_singles st) E0 cdets C t x /\ x <> 0%Qc) /\
      (forall t x u y, In t sel -> ~ In u out ->
         is_score W h (h_el_tol st) (just_singles st) E0 cdets C t x ->
         is_score W h (h_el_tol st) (just_singles st) E0 cdets C u y -> (Qcabs y <= Qcabs x)%Qc) /\
      (length out < ndets_max -> forall u y,
         is_score W h (h_el_tol st) (just_singles st) E0 cdets C u y -> y <> 0%Qc -> In u out)).
Proof.
  intros HW Hn Vs Hc Nc L1 L2 L3 R P. apply search_ok; auto. apply core_forall; auto.
Qed.
Lemma c28_any dbg W st h ndets_max cdets E0 C :
  spin_width W -> norb h <= W / 2 ->
  (forall p q r s, p < norb h -> q < norb h -> r < norb h -> s < norb h ->
     V_pqrs h p q r s = V_pqrs h r s p q) ->
  (forall D, In D cdets -> in_space W (norb h) D /\
     (dbg = true -> bs_count (alpha W D) < norb h /\ bs_count (beta W D) < norb h)) ->
  NoDup cdets -> length cdets <= length C -> length cdets <= ndets_max ->
  (N.of_nat ndets_max < 2 ^ 64)%N ->
  no_resonance W h (h_el_tol st) (just_singles st) E0 cdets ->
  always (asci_search dbg W st h ndets_max cdets E0 C) (fun out =>
    exists sel, out = sel ++ cdets /\ NoDup out /\ length out <= ndets_max /\
      (forall t, In t sel -> exists D, In D cdets /\ contributes W h (h_el_tol st) (just_singles st) D t)).
Proof.
  intros HW Hn Vs Hc Nc L1 L2 L3 R. apply search_any; auto. apply core_forall; auto.
Qed.

Lemma c28_wrap dbg W st h ndets_max cdets E0 C :
  spin_width W -> norb h <= W / 2 ->
  (forall p q r s, p < norb h -> q < norb h -> r < norb h -> s < norb h ->
     V_pqrs h p q r s = V_pqrs h r s p q) ->
  (forall D, In D cdets -> in_space W (norb h) D /\
     (dbg = true -> bs_count (alpha W D) < norb h /\ bs_count (beta W D) < norb h)) ->
  NoDup cdets -> length cdets <= length C -> ndets_max < length cdets ->
  (N.of_nat (length cdets) < 2 ^ 32)%N -> (N.of_nat (pair_size_max st) < 2 ^ 32)%N ->
  no_resonance W h (h_el_tol st) (just_singles st) E0 cdets ->
  at_most_pairs W h (h_el_tol st) (just_singles st) cdets (pair_size_max st) ->
  always (asci_search dbg W st h ndets_max cdets E0 C) (fun out =>
    ndets_max < length out /\
    forall t x, is_score W h (h_el_tol st) (just_singles st) E0 cdets C t x -> x <> 0%Qc -> In t out).
Proof.
  intros HW Hn Vs Hc Nc LC Lm L32 P32 R Hp.
  assert (Hco : Forall (core_ok W h dbg st E0) cdets) by (apply core_forall; auto).
  assert (Lall : length (all_contribs W h st E0 C 0 cdets) <= pair_size_max st).
  { rewrite all_len. apply (Hp (all_pairs W h st 0 cdets)).
    - eapply all_pairs_NoDup; eauto.
    - intros i t H. eapply all_pairs_In in H; eauto. rewrite Nat.sub_0_r in H. split; [lia|tauto]. }
  unfold asci_search, asci_contributions_standard.
  eapply always_bind; [apply loop_ok; auto|]. cbn beta. cbn [app].
  intros pairs ->. set (pairs := all_contribs W h st E0 C 0 cdets) in *.
  assert (Pst : forall t, In t (map fst pairs) <-> exists D, In D cdets /\
    contributes W h (h_el_tol st) (just_singles st) D t)
    by (intros t; eapply all_contribs_state; eauto).
  assert (Pw : forall t, In t (map fst pairs) -> wf W t).
  { intros t Ht. apply Pst in Ht. destruct Ht as (D & _ & [[G _] _]). eapply in_space_wf; eauto. }
  eapply always_bind; [apply sort_acc_ok; auto|].
  intros uniq (Us & Ui & Uv).
  eapply always_weaken; [|apply (select_wrap W ndets_max cdets C uniq)]; auto.
  - intros out [H1 H2]. split.
    + eapply Nat.lt_le_trans; [exact Lm|]. apply NoDup_incl_length; auto. 
    + intros t x Hx X0.
      pose proof (is_score_all W h Hn dbg st E0 C cdets t Hco) as Ha. fold pairs in Ha.
      assert (x = score pairs t) by (eapply is_score_unique; eauto). subst x.
      assert (Ht : In t (map fst pairs)).
      { destruct Hx as (l & _ & Il & E). destruct l as [|i l]; [exfalso; apply X0; rewrite E; reflexivity|].
        apply Pst. exists (nth i cdets 0%N). destruct (proj1 (Il i) (or_introl eq_refl)). split; auto.
        apply nth_In; auto. }
      apply Ui in Ht. apply in_map_iff in Ht. destruct Ht as ([t' v] & E & Hv). cbn [fst] in E. subst t'.
      rewrite <- (Uv _ _ Hv) in X0. eapply H2; eauto.
  - apply NoDup_sorted_lt, Us.
  - intros t Ht. apply Pw, Ui, Ht.
  - intros t Ht. eapply in_space_wf; eauto. apply Hc, Ht.
  - assert (length uniq <= length pairs).
    { rewrite <- (map_length fst uniq), <- (map_length fst pairs). apply NoDup_incl_length; [apply NoDup_sorted_lt, Us|].
      intros t. apply Ui. }
    lia.
Qed.

(** ** examples *)
Definition ex_st : settings := mk_settings 100 4 100 (Q2Qc (1 # 100)) 0 1000 false 2 6 (Q2Qc (1 # 1000)).
Definition ex_core : list N := [(1 + 2 ^ 32)%N; (2 + 2 ^ 32)%N].
Definition ex_C : list Qc := [Q2Qc (4 # 5); Q2Qc (-3 # 5)].
Definition ex_E0 : Qc := Q2Qc (-7 # 3).

Lemma no_res_check W h tol so E0 D : norb h <= W / 2 -> in_space W (norb h) D ->
  forallb (fun t => negb (bad W h E0 t)) (targets W h so D) = true ->
  forall t, contributes W h tol so D t -> E0 <> ham W (norb h) (T_pq h) (V_pqrs h) t t.
Proof.
  intros Hn G H t [Ht _] E. rewrite forallb_forall in H. specialize (H t).
  rewrite (proj2 (bad_spec W h E0 t) E) in H. discriminate H. apply targets_In; auto.
Qed.
Lemma flat_map_len {A B} (f : A -> list B) l :
  length (flat_map f l) = fold_right Nat.add 0 (map (fun a => length (f a)) l).
Proof. induction l as [|a l IH]; cbn; auto. rewrite app_length, IH. reflexivity. Qed.
Lemma pairs_check W h tol so cdets m : norb h <= W / 2 -> (forall D, In D cdets -> in_space W (norb h) D) ->
  fold_right Nat.add 0 (map (fun D => length (targets W h so D)) cdets) <= m ->
  at_most_pairs W h tol so cdets m.
Proof.
  intros Hn G L l Nl Hl.
  assert (X : length l <= length (flat_map (fun i => map (pair i) (targets W h so (nth i cdets 0%N))) (seq 0 (length cdets)))).
  { apply NoDup_incl_length; auto. intros [i t] H. apply Hl in H. destruct H as [Hi [Hk _]].
    apply in_flat_map. exists i. split; [apply in_seq; lia|]. apply in_map. apply targets_In; auto.
    apply G, nth_In, Hi. }
  rewrite flat_map_len in X.
  erewrite map_ext in X; [|intros; apply map_length].
  rewrite <- (map_map (fun i => nth i cdets 0%N) (fun D => length (targets W h so D))), map_nth_seq in X.
  lia.
Qed.
Lemma ex_sym : vsym ex_ints.
Proof. intros p q r s _ _ _ _. unfold ex_ints. cbn [V_pqrs]. f_equal. lia. Qed.
Lemma ex_space D : In D ex_core -> in_space 64 (norb ex_ints) D.
Proof. intros [<-|[<-|[]]]; spc. Qed.

Lemma c28_ex :
  (forall D, In D ex_core -> in_space 64 (norb ex_ints) D /\
     (true = true -> bs_count (alpha 64 D) < norb ex_ints /\ bs_count (beta 64 D) < norb ex_ints)) /\
  NoDup ex_core /\ length ex_core <= length ex_C /\
  no_resonance 64 ex_ints (h_el_tol ex_st) (just_singles ex_st) ex_E0 ex_core /\
  at_most_pairs 64 ex_ints (h_el_tol ex_st) (just_singles ex_st) ex_core (pair_size_max ex_st) /\
  exists t x, is_score 64 ex_ints (h_el_tol ex_st) (just_singles ex_st) ex_E0 ex_core ex_C t x /\ x <> 0%Qc.
Proof.
  split.
  { intros D HD. split; [apply ex_space, HD|]. intros _. destruct HD as [<-|[<-|[]]]; vm_compute; auto. }
  split; [unfold ex_core; nodupx|]. split; [reflexivity|]. split.
  { intros D t HD. apply no_res_check; [vm_compute; lia|apply ex_space, HD|].
    destruct HD as [<-|[<-|[]]]; vm_compute; reflexivity. }
  split.
  { apply pairs_check; [vm_compute; lia|apply ex_space|]. apply Nat.leb_le. vm_compute. reflexivity. }
  exists (8 + 2 ^ 32)%N. eexists. split.
  - apply (is_score_all 64 ex_ints) with (dbg := false); [vm_compute; lia|].
    apply core_forall.
    + intros D HD. split; [apply ex_space, HD|discriminate].
    + intros D t HD. apply no_res_check; [vm_compute; lia|apply ex_space, HD|].
      destruct HD as [<-|[<-|[]]]; vm_compute; reflexivity.
  - apply nz_ok. vm_compute. reflexivity.
Qed.

(** growth that never ends *)
Definition hang_ints : ints := mk_ints 2 (fun p q => inject (p + q + 1)) (fun _ _ _ _ => 0%Qc).
Definition hang_st : settings := mk_settings 2 1 1 (Q2Qc (1 # 100)) 0 1000 false 1 6 (Q2Qc (1 # 1000)).
Definition hang_diag : diag := fun _ => ret (Q2Qc (-7 # 3), [1%Qc]).
Lemma hang_ex : forall fuel, 
  (exists r, asci_grow fuel false 64 hang_st hang_ints hang_diag (Q2Qc (-7 # 3), [(1 + 2 ^ 32)%N], [1%Qc]) r) /\
  forall r, asci_grow fuel false 64 hang_st hang_ints hang_diag (Q2Qc (-7 # 3), [(1 + 2 ^ 32)%N], [1%Qc]) r ->
    r = Err Hang.
Proof.
  intros fuel. apply grow_hangs; try reflexivity.
  - left; reflexivity.
  - vm_compute; lia.
  - cbn. lia.
  - intros E X H. injection H as -> ->. split; [|cbn; lia].
    split; [spc|]. split; [discriminate|]. apply no_res_check; [vm_compute; lia|spc|]. vm_compute. reflexivity.
  - exists (Q2Qc (-7 # 3)), [1%Qc]. reflexivity.
  - intros e H. discriminate.
Qed.

Lemma c26_ex :
  (forall s, In s (map fst [(5%N, 1%Qc); (3%N, Q2Qc 2); (5%N, Q2Qc (-4))]) -> wf 64 s) /\
  score [(5%N, 1%Qc); (3%N, Q2Qc 2); (5%N, Q2Qc (-4))] 5 = Q2Qc (-3).
Proof.
  split; [|apply Qc_is_canon; vm_compute; reflexivity].
  cbn [map fst In]. intros s [<-|[<-|[<-|[]]]]; wfc.
Qed.
Lemma c51_resonance dbg W h tol so E0 c D t :
  spin_width W -> norb h <= W / 2 ->
  (forall p q r s, p < norb h -> q < norb h -> r < norb h -> s < norb h ->
     V_pqrs h p q r s = V_pqrs h r s p q) ->
  in_space W (norb h) D ->
  (dbg = true -> bs_count (alpha W D) < norb h /\ bs_count (beta W D) < norb h) ->
  contributes W h tol so D t -> E0 = ham W (norb h) (T_pq h) (V_pqrs h) t t ->
  det_contributions dbg W h tol so E0 c D = Err NonFinite.
Proof. intros. eapply det_resonant; eauto. Qed.
Lemma c51_ex :
  in_space 64 (norb ex_ints) (1 + 2 ^ 32) /\
  (forall t, contributes 64 ex_ints (Q2Qc (1 # 100)) false (1 + 2 ^ 32) t ->
     ex_E0 <> ham 64 (norb ex_ints) (T_pq ex_ints) (V_pqrs ex_ints) t t) /\
  (exists l, det_contributions true 64 ex_ints (Q2Qc (1 # 100)) false ex_E0 1 (1 + 2 ^ 32) = Ok l /\
     length l =? 15 = true) /\
  contributes 64 ex_ints (Q2Qc (1 # 100)) false (1 + 2 ^ 32) (2 + 2 ^ 32) /\
  ham 64 (norb ex_ints) (T_pq ex_ints) (V_pqrs ex_ints) (2 + 2 ^ 32) (2 + 2 ^ 32) = Q2Qc 7.
Proof.
  split; [spc|]. split; [|split; [|split]].
  - apply no_res_check; [vm_compute; lia|spc|vm_compute; reflexivity].
  - apply okb_ok. vm_compute. reflexivity.
  - split; [split; [spc|]|].
    + left. exists 1, 0. split; auto. split; mv.
    + intros X. vm_compute in X. discriminate X.
  - apply Qc_is_canon. vm_compute. reflexivity.
Qed.

Lemma c36_grow fuel W h dbg st dg s :
  (N.of_nat (ntdets_max st) < 2 ^ 64)%N -> 2 <= grow_factor st ->
  1 <= wfn_size s -> wfn_size s <= ntdets_max st ->
  if_returns (asci_grow fuel dbg W st h dg s) (fun s' => wfn_size s' = ntdets_max st /\
    exists l, last (s :: l) s = s' /\
      path (fun a b =>
        let target := Nat.min (Nat.max (ntdets_min st) (wfn_size a * grow_factor st)) (ntdets_max st) in
        asci_iter dbg W st h dg target a (Ok b) /\ wfn_size b = target /\
        wfn_size a < wfn_size b /\ dg (wfn_dets b) (Ok (wfn_energy b, snd b))) (s :: l)).
Proof.
  intros H64 Hg H1 Hm. eapply returns_weaken; [|apply grow_ok; auto; lia]. cbn beta.
  intros s' (E & l & Hp & Hl). split; auto. exists l. split; auto. clear E Hl Hm.
  revert s H1 Hp. induction l as [|b l IH]; intros s H1 Hp; [exact I|].
  destruct Hp as ((Hi & Lt & E) & Hp). pose proof (grow_strict st s Hg H1 Lt) as Hs.
  assert (Hb : 1 <= wfn_size b) by lia. split; [|apply IH; auto].
  split; [exact Hi|]. split; [exact E|]. split; [lia|].
  assert (LL : Nat.min (ncdets_max st) (wfn_size s) <= grow_to st s) by lia.
  assert (L64 : (N.of_nat (grow_to st s) < 2 ^ 64)%N) by (unfold grow_to; lia).
  apply (iter_len dbg W st h dg (grow_to st s) s LL L64 b Hi).
Qed.
Lemma c36_term W h dbg st dg : 2 <= grow_factor st ->
  forall f f' s, 1 <= wfn_size s ->
    ntdets_max st - wfn_size s <= f -> ntdets_max st - wfn_size s <= f' ->
    forall r, asci_grow f dbg W st h dg s r <-> asci_grow f' dbg W st h dg s r.
Proof. intros Hg f f' s H1 H2 H3 r. split; apply grow_fuel; auto. Qed.
Lemma c36_hang : exists h st (dg : diag) s,
  grow_factor st = 1 /\ wfn_size s = 1 /\ forall fuel,
  (exists r, asci_grow fuel false 64 st h dg s r) /\
  forall r, asci_grow fuel false 64 st h dg s r -> r = Err Hang.
Proof.
  exists hang_ints, hang_st, hang_diag, (Q2Qc (-7 # 3), [(1 + 2 ^ 32)%N], [1%Qc]).
  split; [reflexivity|]. split; [reflexivity|]. exact hang_ex.
Qed.
Lemma c36_refine W h dbg st dg s :
  if_returns (asci_refine dbg W st h dg s) (fun s' => wfn_size s' = wfn_size s /\
    exists l, 1 <= length l <= max_refine_iter st /\
      path (fun a b => asci_iter dbg W st h dg (wfn_size s) a (Ok b) /\ wfn_size b = wfn_size s) (s :: l) /\
      last (s :: l) s = s' /\
      (Qcabs (wfn_energy s' - wfn_energy (last (removelast (s :: l)) s)) < refine_energy_tol st)%Qc).
Proof. unfold asci_refine. fold (wfn_size s). apply refine_ok. reflexivity. Qed.

Lemma c53 W h dbg st na nb dg s :
  spin_width W -> norb h <= W / 2 ->
  (forall p q r s, p < norb h -> q < norb h -> r < norb h -> s < norb h ->
     V_pqrs h p q r s = V_pqrs h r s p q) ->
  (dbg = true -> na < norb h /\ nb < norb h) ->
  valid_dets W (norb h) na nb (wfn_dets s) ->
  (forall ndets_max, if_returns (asci_iter dbg W st h dg ndets_max s)
     (fun s' => valid_dets W (norb h) na nb (wfn_dets s'))) /\
  (forall fuel, if_returns (asci_grow fuel dbg W st h dg s)
     (fun s' => valid_dets W (norb h) na nb (wfn_dets s'))) /\
  if_returns (asci_refine dbg W st h dg s) (fun s' => valid_dets W (norb h) na nb (wfn_dets s')).
Proof.
  intros HW Hn Vs Hd Hv.
  assert (IV : forall m s, valid_dets W (norb h) na nb (wfn_dets s) ->
    if_returns (asci_iter dbg W st h dg m s) (fun s' => valid_dets W (norb h) na nb (wfn_dets s')))
    by (intros; apply iter_valid; auto).
  split; [auto|]. split.
  - intros fuel. revert s Hv. induction fuel as [|f IH]; intros [[E0 wfn] X] Hv; cbn [asci_grow].
    + destruct (_ <? _); [apply returns_det; discriminate|apply returns_ret; exact Hv].
    + destruct (_ <? _); [|apply returns_ret; exact Hv].
      eapply returns_bind; [apply IV; exact Hv|]. intros s1 H1. cbn beta in H1.
      destruct (_ <? _); [apply returns_det; discriminate|]. apply IH, H1.
  - unfold asci_refine. generalize (length (snd (fst s))) as m. generalize (max_refine_iter st) as k. intros k m.
    revert s Hv. induction k as [|k IH]; intros s Hv; cbn [refine_loop]; [apply returns_det; discriminate|].
    eapply returns_bind; [apply IV; exact Hv|]. intros s1 H1. cbn beta in H1.
    destruct (negb _); [apply returns_det; discriminate|].
    destruct (abs_lt _ _); [apply returns_ret; exact H1|apply IH, H1].
Qed.
Lemma c53_ex : valid_dets 64 (norb ex_ints) 1 1 (wfn_dets (ex_E0, ex_core, ex_C)).
Proof.
  split; [unfold wfn_dets, ex_core; cbn [fst snd]; nodupx|]. intros D [<-|[<-|[]]]; (split; [spc|split; sz]).
Qed.

Definition ex_D : N := (1 + 2 ^ 32)%N.
Definition grow_st : settings := mk_settings 3 3 100 (Q2Qc (1 # 100)) 0 1000 false 2 6 (Q2Qc (1 # 1000)).
Definition ex_dg : diag := fun dets => ret (ex_E0, map (fun _ => 1%Qc) dets).
Lemma ex_D_core st : h_el_tol st = Q2Qc (1 # 100) -> core_ok 64 ex_ints true st ex_E0 ex_D.
Proof.
  intros E. split; [spc|]. split; [intros _; vm_compute; auto|]. apply no_res_check; [vm_compute; lia|spc|].
  destruct (just_singles st); vm_compute; reflexivity.
Qed.

Lemma ex_score t : exists x, is_score 64 ex_ints (Q2Qc (1 # 100)) false ex_E0 [ex_D] [1%Qc] t x /\
  x = score (all_contribs 64 ex_ints grow_st ex_E0 [1%Qc] 0 [ex_D]) t.
Proof.
  eexists. split; [|reflexivity].
  apply (is_score_all 64 ex_ints) with (st := grow_st) (dbg := true); [vm_compute; lia|].
  constructor; [|constructor]. apply ex_D_core. reflexivity.
Qed.
Lemma c36_iter_ex : always (asci_iter true 64 grow_st ex_ints ex_dg 3 (ex_E0, [ex_D], [1%Qc]))
  (fun s' => wfn_size s' = 3).
Proof.
  unfold asci_iter. change (1 <? length [ex_D]) with false.
  apply always_bind with (P := fun wX => wX = ([ex_D], [1%Qc])); [apply always_ret; auto|].
  intros wX ->. cbn [fst snd length]. change (Nat.min (ncdets_max grow_st) 1) with 1. cbn [firstn].
  apply always_bind with (P := fun new => length new = 3).
  - eapply always_weaken; [|apply c28; try exact ex_sym].
    + cbn beta. intros out (sel & E & Nd & L & _ & _ & F).
      destruct (Nat.lt_ge_cases (length out) 3) as [Hlt|]; [exfalso|lia].
      assert (X : incl [2 + 2 ^ 32; 4 + 2 ^ 32; 8 + 2 ^ 32]%N out).
      { intros t Ht. destruct (ex_score t) as (x & Hx & Ex). apply (F Hlt t x Hx).
        rewrite Ex. destruct Ht as [<-|[<-|[<-|[]]]]; apply nz_ok; vm_compute; reflexivity. }
      apply NoDup_incl_length in X; [cbn [length] in X; lia|]. nodupx.
    + left; reflexivity.
    + vm_compute; lia.
    + intros D [<-|[]]. split; [spc|]. intros _. vm_compute. auto.
    + nodupx.
    + reflexivity.
    + cbn [length]. lia.
    + reflexivity.
    + intros D t [<-|[]]. apply (ex_D_core grow_st). reflexivity.
    + apply pairs_check; [vm_compute; lia| |].
      * intros D [<-|[]]. spc.
      * apply Nat.leb_le. vm_compute. reflexivity.
  - intros new Hn. apply always_bind with (P := fun _ => True); [apply always_ret; exact I|].
    intros EX _. apply always_ret. exact Hn.
Qed.
Lemma c36_ex : 2 <= grow_factor grow_st /\ (N.of_nat (ntdets_max grow_st) < 2 ^ 64)%N /\
  wfn_size (ex_E0, [ex_D], [1%Qc]) = 1 /\
  forall fuel, 1 <= fuel -> always (asci_grow fuel true 64 grow_st ex_ints ex_dg (ex_E0, [ex_D], [1%Qc]))
    (fun s' => wfn_size s' = 3).
Proof.
  split; [reflexivity|]. split; [reflexivity|]. split; [reflexivity|].
  intros [|f] Hf; [lia|]. cbn [asci_grow length ntdets_max ntdets_min grow_factor grow_st].
  change (1 <? 3) with true. cbv iota. change (Nat.min (Nat.max 3 (1 * 2)) 3) with 3.
  eapply always_bind; [exact c36_iter_ex|]. cbn beta. intros s' Hs. fold (wfn_size s'). rewrite Hs.
  change (3 <? 3) with false. cbv iota. destruct s' as [[E w] X]. unfold wfn_size in Hs. cbn [fst snd] in Hs.
  destruct f; cbn [asci_grow]; rewrite Hs; apply always_ret; exact Hs.
Qed.
Lemma c36_refine_ex : always (asci_refine true 64 grow_st ex_ints ex_dg (ex_E0, [ex_D], [1%Qc]))
  (fun s' => s' = (ex_E0, [ex_D], [1%Qc])).
Proof.
  unfold asci_refine. cbn [max_refine_iter grow_st refine_loop fst snd length].
  apply always_bind with (P := fun s' => s' = (ex_E0, [ex_D], [1%Qc])).
  - unfold asci_iter. change (1 <? length [ex_D]) with false.
    apply always_bind with (P := fun wX => wX = ([ex_D], [1%Qc])); [apply always_ret; auto|].
    intros wX ->. cbn [fst snd length]. change (Nat.min (ncdets_max grow_st) 1) with 1. cbn [firstn].
    apply always_bind with (P := fun new => new = [ex_D]).
    + eapply always_weaken; [|apply c28_any; try exact ex_sym].
      * cbn beta. intros out (sel & -> & _ & L & _). rewrite app_length in L. cbn [length] in L.
        destruct sel; [reflexivity|cbn [length] in L; lia].
      * left; reflexivity.
      * vm_compute; lia.
      * intros D [<-|[]]. split; [spc|]. intros _. vm_compute. auto.
      * nodupx.
      * reflexivity.
      * reflexivity.
      * reflexivity.
      * intros D t [<-|[]]. apply (ex_D_core grow_st). reflexivity.
    + intros new ->. apply always_bind with (P := fun EX => EX = (ex_E0, [1%Qc])); [apply always_ret; reflexivity|].
      intros EX ->. apply always_ret. reflexivity.
  - intros s' ->. cbn [fst snd length]. change (negb (1 =? 1)) with false. cbv iota.
    replace (abs_lt (ex_E0 - ex_E0) (refine_energy_tol grow_st)) with true by (vm_compute; reflexivity).
    apply always_ret. reflexivity.
Qed.

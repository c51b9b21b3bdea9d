(** The constraint-based search on one rank: contributions of all core
    determinants under one constraint, and the loop over constraints. *)
From Coq Require Import QArith Qcanon Sorting.Permutation Sorting.Sorted.
From Verif Require Import Base Nondet Bits BitsProofs SD Spec SDProofs SDProofs2 SDProofs3 SDProofs4 SDProofs5 Sums
  FockSpec FockProofs SlaterCondon Ham
  HamProofs HamProofs2 HamProofs3 HamProofs4 HamProofs5 HamProofs6 HamProofs7 HamProofs8 PropsHamGlue
  Asci AsciSpec AsciSort AsciContrib AsciContrib2 AsciSearch AsciSearch2 AsciSearch3
  Constraint ConstraintSpec ConstraintProofs ConstraintProofs2 ConstraintProofs3 ConstraintDist ConstraintDist2
  ConstraintContrib ConstraintSearch.
Local Open Scope nat_scope.

(** ** lists *)
Lemma sort_on {A} (lt lt' : A -> A -> bool) l :
  (forall x y, In x l -> In y l -> lt x y = lt' x y) ->
  (forall x y, lt' x y = true -> lt' y x = false) ->
  (forall x y z, lt' y x = false -> lt' z y = false -> lt' z x = false) ->
  always (std_sort lt l) (fun l' => Permutation l l' /\ StronglySorted (fun x y => lt' y x = false) l').
Proof.
  intros E AS NT.
  assert (C : forall m, (forall x, In x m -> In x l) ->
     (StronglySorted (fun x y => lt y x = false) m <-> StronglySorted (fun x y => lt' y x = false) m)).
  { induction m as [|x m IH]; intros Hm; split; intros Q; constructor; inversion Q as [|? ? Q1 Q2]; subst.
    - apply IH; auto. intros; apply Hm; right; auto.
    - rewrite Forall_forall in *. intros y Hy. specialize (Q2 y Hy). rewrite E in Q2 by (apply Hm; cbn; auto). auto.
    - apply IH; auto. intros; apply Hm; right; auto.
    - rewrite Forall_forall in *. intros y Hy. specialize (Q2 y Hy). rewrite E by (apply Hm; cbn; auto). auto. }
  split.
  - destruct (sort_exists lt' AS NT l) as (l' & P & Q). exists (Ok l'), l'. split; auto. split; auto. apply C; auto.
    intros x Hx. apply (Permutation_in x (Permutation_sym P)), Hx.
  - intros r (l' & -> & P & Q). exists l'. split; auto. split; auto. apply C; auto.
    intros x Hx. apply (Permutation_in x (Permutation_sym P)), Hx.
Qed.
Lemma unique_from_In x l y : In y (x :: unique_from N.eqb x l) <-> In y (x :: l).
Proof.
  revert x. induction l as [|z l IH]; intros x; cbn [unique_from]; [reflexivity|].
  destruct (N.eqb_spec x z) as [<-|Ne].
  - rewrite IH. cbn [In]. tauto.
  - cbn [In] in *. rewrite IH. reflexivity.
Qed.
Lemma unique_from_NoDup x l : StronglySorted N.le (x :: l) -> NoDup (x :: unique_from N.eqb x l).
Proof.
  revert x. induction l as [|z l IH]; intros x H; cbn [unique_from]; [repeat constructor; intros []|].
  inversion H as [|? ? H1 H2]; subst. inversion H1 as [|? ? H3 H4]; subst. inversion H2 as [|? ? H5 H6]; subst.
  destruct (N.eqb_spec x z) as [<-|Ne].
  - apply IH. exact H1.
  - constructor; [|apply IH; exact H1]. intros X.
    apply (unique_from_In z l x) in X. destruct X as [->|X]; [congruence|].
    rewrite Forall_forall in H4. specialize (H4 x X). lia.
Qed.
Lemma flat_map_app_perm {A B} (f g : A -> list B) l :
  Permutation (flat_map f l ++ flat_map g l) (flat_map (fun x => f x ++ g x) l).
Proof.
  induction l as [|x l IH]; cbn [flat_map]; auto. rewrite <- IH, <- !app_assoc. apply Permutation_app_head.
  rewrite !app_assoc. apply Permutation_app_tail, Permutation_app_comm.
Qed.
Lemma flat_map_nil {A B} (f : A -> list B) l : (forall x, In x l -> f x = []) -> flat_map f l = [].
Proof. induction l as [|x l IH]; intros H; auto. cbn [flat_map]. rewrite (H x), IH; auto; [intros; apply H; right|left]; auto. Qed.
Lemma flat_map_ext_in {A B} (f g : A -> list B) l : (forall x, In x l -> f x = g x) -> flat_map f l = flat_map g l.
Proof. induction l as [|x l IH]; intros H; auto. cbn [flat_map]. rewrite (H x), IH; auto; [intros; apply H; right|left]; auto. Qed.
Lemma partition_perm {A B} (k : A -> N) (f : A -> list B) ua l : NoDup ua -> (forall j, In j l -> In (k j) ua) ->
  Permutation (flat_map (fun a => flat_map f (filter (fun j => (k j =? a)%N) l)) ua) (flat_map f l).
Proof.
  intros Nd. induction l as [|j l IH]; intros H; cbn [filter flat_map].
  - rewrite flat_map_nil; auto.
  - rewrite <- IH by (intros; apply H; right; auto).
    assert (E : flat_map (fun a => flat_map f (if (k j =? a)%N then j :: filter (fun j => (k j =? a)%N) l
                                                else filter (fun j => (k j =? a)%N) l)) ua =
                flat_map (fun a => (if (k j =? a)%N then f j else []) ++ flat_map f (filter (fun j => (k j =? a)%N) l)) ua).
    { apply flat_map_ext_in. intros a _. destruct (_ =? _)%N; reflexivity. }
    rewrite E, <- flat_map_app_perm. apply Permutation_app_tail.
    assert (I : In (k j) ua) by (apply H; left; auto). clear - Nd I.
    induction Nd as [|a ua Na Nd IH]; [destruct I|]. cbn [flat_map]. destruct (N.eqb_spec (k j) a) as [<-|Ne].
    + rewrite flat_map_nil; [rewrite app_nil_r; auto|]. intros x Hx. destruct (N.eqb_spec (k j) x) as [<-|]; auto. contradiction.
    + destruct I as [I|I]; [congruence|]. apply IH, I.
Qed.
Lemma mapM_map {A B R} (f : B -> res R) (g : A -> B) l : mapM f (map g l) = mapM (fun x => f (g x)) l.
Proof. induction l as [|x l IH]; auto. cbn [map mapM]. rewrite IH. reflexivity. Qed.
Lemma collect_sel {A B} (f : A -> res (option B)) p g (l : list A) :
  (forall a, In a l -> f a = if p a : bool then Ok (Some (g a)) else Ok None) -> collect f l = Ok (map g (filter p l)).
Proof.
  induction l as [|x l IH]; intros H; auto. cbn [collect filter]. rewrite (H x) by (left; auto).
  rewrite IH by (intros; apply H; right; auto). destruct (p x); reflexivity.
Qed.
Lemma score_perm l l' t : Permutation l l' -> score l t = score l' t.
Proof. intros P. apply sum_perm, vals_perm, P. Qed.

Section LOOP.
  Variables (W : nat) (HW : spin_width W) (h : ints).
  Notation n := (norb h).
  Hypothesis Hn : n <= W / 2.
  Hypothesis Vs : forall p q r s, p < n -> q < n -> r < n -> s < n ->
     V_pqrs h p q r s = V_pqrs h r s p q.
  Notation Hm := (ham W n (T_pq h) (V_pqrs h)).
  Variables (dbg : bool) (st : settings) (E0 : Qc) (C : list Qc) (cdets : list N).
  Notation tol := (h_el_tol st).
  Hypothesis HC : length cdets <= length C.
  Hypothesis Hsp : forall D, In D cdets -> in_space W n D.
  Hypothesis Hdbg : dbg = true -> forall D, In D cdets -> bs_count (alpha W D) < n /\ bs_count (beta W D) < n.
  Hypothesis Hres : no_resonance_c W h tol E0 cdets C.
  Notation L := (length cdets).
  Notation Dj j := (nth j cdets 0%N).
  Notation cj j := (nth j C 0%Qc).

  Lemma Dj_space j : j < L -> in_space W n (Dj j).
  Proof. intros H. apply Hsp, nth_In, H. Qed.
  Lemma alpha_part_ok w : alpha_part W w = alpha W w.
  Proof.
    clear - HW. apply tb_ext. intros k. unfold alpha_part. change (alpha W w) with (str W false w). rewrite tb_and, tb_str_all.
    rewrite tb_full_mask_ct by (pose proof (spin_width_half W HW); lia). unfold so. cbn [orb]. apply andb_comm.
  Qed.

  (* the data of core determinant j *)
  Definition good_b (j : nat) (b : bcd) : Prop :=
    b_coeff b = cj j /\ b_string b = bs_shl W (str W true (Dj j)) (W / 2) /\
    b_occ b = positions n (str W true (Dj j)) /\ b_vir b = virt n (str W true (Dj j)) /\
    ens_good W h (Dj j) false (b_ens_alpha b) /\ ens_good W h (Dj j) true (b_ens_beta b) /\ b_diag b = Hm (Dj j) (Dj j).
  Definition dflt_b : bcd := mk_bcd 0 0 [] [] [] [] 0.
  Definition B (j : nat) : bcd :=
    match make_bcd dbg W h (positions n (alpha W (Dj j))) (cj j) (Dj j) with Ok b => b | Err _ => dflt_b end.
  Lemma B_ok j : j < L -> make_bcd dbg W h (positions n (alpha W (Dj j))) (cj j) (Dj j) = Ok (B j) /\ good_b j (B j).
  Proof.
    intros Hj. pose proof (Dj_space j Hj) as G.
    pose proof (spin_width_half W HW) as WH.
    assert (BS : bs_shr (Dj j) (W / 2) = beta W (Dj j)).
    { apply tb_ext. intros k. change (beta W (Dj j)) with (str W true (Dj j)). rewrite tb_bs_shr, tb_str_all. unfold so. cbn [orb andb]. reflexivity. }
    assert (X : exists b, make_bcd dbg W h (positions n (alpha W (Dj j))) (cj j) (Dj j) = Ok b /\ good_b j b).
    { unfold make_bcd. rewrite BS. rewrite (diag_code W HW h Hn Vs (Dj j) G). cbn [bind].
      rewrite occ_vir_ok; [|pose proof (nW W HW h Hn); lia|apply G|intros X; apply (Hdbg X), nth_In, Hj]. cbn [bind fst snd].
      destruct (ens_ok W h Hn Vs (Dj j) false G) as (ea & E1 & Ga). destruct (ens_ok W h Hn Vs (Dj j) true G) as (eb & E2 & Gb).
      cbn [negb str] in E1, E2. rewrite E1. cbn [bind]. rewrite E2. cbn [bind]. eexists. split; [reflexivity|].
      unfold good_b. cbn [b_coeff b_string b_occ b_vir b_ens_alpha b_ens_beta b_diag]. repeat split; auto. }
    destruct X as (b & E & Gb). unfold B. rewrite E. auto.
  Qed.
  Definition idx (al : N) : list nat := filter (fun j => (alpha W (Dj j) =? al)%N) (seq 0 L).
  Lemma alpha_data_ok al : (exists j, j < L /\ alpha W (Dj j) = al) ->
    alpha_data dbg W h C cdets al = Ok (map B (idx al)).
  Proof.
    intros (j0 & Hj0 & Ea). unfold alpha_data. pose proof (Dj_space j0 Hj0) as G0.
    rewrite occ_vir_ok.
    - cbn [bind fst snd]. apply collect_sel. intros j Hj. apply in_seq in Hj. rewrite alpha_part_ok.
      destruct (N.eqb_spec (alpha W (Dj j)) al) as [E|E]; auto.
      unfold at_. rewrite (nth_error_nth' C 0%Qc) by lia. cbn [bind]. rewrite <- E.
      rewrite (proj1 (B_ok j (proj2 Hj))). reflexivity.
    - pose proof (nW W HW h Hn); lia.
    - rewrite <- Ea. apply G0.
    - intros X. rewrite <- Ea. apply (Hdbg X), nth_In, Hj0.
  Qed.

  Section CON.
    Variables (con : constraint) (Hc : valid_con n con).
    Notation ck j := (ckept W h tol (cj j) (Dj j) con).
    Definition cc (j : nat) : list contrib := ccontribs W h tol E0 (cj j) (Dj j) con.
    Lemma ck_In j t : j < L -> In t (ck j) <-> contributes_at W h tol cdets C j t /\ meets con (alpha W t).
    Proof.
      intros Hj. cbn beta. rewrite ckept_In by (auto; apply Dj_space, Hj). unfold contributes_at. tauto.
    Qed.
    Lemma runc_ok j P l : j < L -> (forall t, In t l -> P t = true -> In t (ck j)) ->
      runc W h E0 (cj j) (Dj j) P l = Ok (map (fun t => (t, pt_coeff W h E0 (cj j) (Dj j) t)) (filter P l)).
    Proof.
      intros Hj H. unfold runc. destruct (existsb _ l) eqn:E; [|reflexivity]. exfalso. apply existsb_exists in E.
      destruct E as (t & It & E). apply andb_prop in E. destruct E as [E1 E2]. apply bad_spec in E2.
      apply (Hres j t); auto. apply (ck_In j t Hj). apply H; auto.
    Qed.
    Lemma run_ok j l : j < L -> (forall t, In t l -> big W h tol (Dj j) t = true -> In t (ck j)) ->
      run W h tol E0 (cj j) (Dj j) l = Ok (map (fun t => (t, pt_coeff W h E0 (cj j) (Dj j) t)) (filter (big W h tol (Dj j)) l)).
    Proof. intros Hj H. apply (runc_ok j (big W h tol (Dj j)) l Hj H). Qed.

    Lemma con_alpha_ok al : wf n al -> exists l, con_alpha_contrib W h tol E0 con al (map B (idx al)) = Ok l /\
      Permutation l (flat_map cc (idx al)).
    Proof.
      intros Hal. unfold con_alpha_contrib. pose proof (nW W HW h Hn) as NW.
      rewrite full_mask_ok by auto. cbn [bind].
      rewrite bits_to_indices_ok by (intros k Hk; apply Hal; lia). rewrite (positions_wf n W) by auto. cbn [bind].
      assert (HI : forall j, In j (idx al) -> j < L /\ alpha W (Dj j) = al).
      { intros j Hj. apply filter_In in Hj. rewrite in_seq in Hj. destruct Hj as [Hj E]. apply N.eqb_eq in E. split; auto. lia. }
      set (pv := fun j t => (t, pt_coeff W h E0 (cj j) (Dj j) t)).
      set (f1 := fun j => map (pv j) (filter (bigc W h tol (cj j) (Dj j)) (cT1 W h (Dj j) con))).
      set (f2 := fun j => map (pv j) (filter (bigc W h tol (cj j) (Dj j)) (cT2 W (Dj j) con))).
      set (f3 := fun j => map (pv j) (filter (bigc W h tol (cj j) (Dj j)) (cTO W h (Dj j) con))).
      set (f4 := fun j => map (pv j) (filter (big W h tol (Dj j)) (T1 W h (Dj j) true)) ++
                          map (pv j) (filter (big W h tol (Dj j)) (T2 W h (Dj j) true))).
      rewrite !mapM_map.
      rewrite (mapM_ok _ f1).
      2:{ intros j Hj. destruct (HI j Hj) as [Lj Ea]. destruct (B_ok j Lj) as [_ (G1 & G2 & G3 & G4 & G5 & G6 & G7)].
          rewrite G1, G2, G3, G7. rewrite <- Ea.
          pose proof (csingles_ok W HW h Hn Vs tol E0 (cj j) (Dj j) (Dj_space j Lj) con Hc _ G5) as X. cbn [str] in *. rewrite X.
          apply runc_ok; auto. intros t It Pt. unfold ckept. rewrite !in_app_iff, !filter_In. auto. }
      cbn [bind]. rewrite (mapM_ok _ f2).
      2:{ intros j Hj. destruct (HI j Hj) as [Lj Ea]. destruct (B_ok j Lj) as [_ (G1 & G2 & G3 & G4 & G5 & G6 & G7)].
          rewrite G1, G2, G7. rewrite <- Ea.
          pose proof (css_ok W HW h Hn Vs tol E0 (cj j) (Dj j) (Dj_space j Lj) con Hc _ G5) as X. cbn [str] in *. rewrite X.
          apply runc_ok; auto. intros t It Pt. unfold ckept. rewrite !in_app_iff, !filter_In. auto. }
      cbn [bind]. rewrite (mapM_ok _ f3).
      2:{ intros j Hj. destruct (HI j Hj) as [Lj Ea]. destruct (B_ok j Lj) as [_ (G1 & G2 & G3 & G4 & G5 & G6 & G7)].
          rewrite G1, G2, G3, G4, G7. rewrite <- Ea.
          pose proof (cos_ok W HW h Hn Vs tol E0 (cj j) (Dj j) (Dj_space j Lj) con Hc _ _ G5 G6) as X. cbn [str] in *. rewrite X.
          apply runc_ok; auto. intros t It Pt. unfold ckept. rewrite !in_app_iff, !filter_In. auto. }
      cbn [bind].
      assert (E4 : (if satisfies_constraint al (con_C con) (con_min con) then
        mapM (fun b =>
        let state := N.lor al (b_string b) in
        let sb := bitset_hi_word W (b_string b) in
        do m1 <- append_singles_contrib W (W / 2) h (b_coeff b) state sb (b_occ b) (b_vir b) (positions n al)
                   (b_ens_beta b) tol (b_diag b) E0;
        do m2 <- append_ss_doubles_contrib W (W / 2) h (b_coeff b) state sb (b_occ b) (b_vir b)
                   (b_ens_beta b) tol (b_diag b) E0;
        Ok (m1 ++ m2)) (map B (idx al)) else Ok []) = Ok (if sat al con then map f4 (idx al) else [])).
      { unfold sat. destruct (satisfies_constraint al (con_C con) (con_min con)) eqn:SA; [|reflexivity].
        rewrite mapM_map. apply mapM_ok. intros j Hj. destruct (HI j Hj) as [Lj Ea].
        destruct (B_ok j Lj) as [_ (G1 & G2 & G3 & G4 & G5 & G6 & G7)]. cbv zeta. rewrite G1, G2, G3, G4, G7.
        assert (EH : bitset_hi_word W (bs_shl W (str W true (Dj j)) (W / 2)) = str W true (Dj j)).
        { rewrite <- beta_hi.
          - apply tb_ext. intros k. change (tb (str W true (bs_shl W (str W true (Dj j)) (W / 2))) k = tb (str W true (Dj j)) k).
            rewrite tb_str_all. unfold so. cbn [orb andb]. rewrite tb_bs_shl. pose proof (spin_width_half W HW).
            destruct (Nat.ltb_spec (k + W / 2) W), (Nat.leb_spec (W / 2) (k + W / 2)); try lia; cbn [andb].
            + f_equal. lia.
            + symmetry. assert (WB : wf n (str W true (Dj j))) by apply (Dj_space j Lj). apply WB. lia.
          - auto.
          - intros k Hk. rewrite tb_bs_shl. destruct (Nat.ltb_spec k W); [lia|reflexivity]. }
        rewrite EH. pose proof (D_join W HW h Hn (Dj j) (Dj_space j Lj)) as DJ. rewrite <- Ea.
        cbn [str] in DJ |- *. rewrite DJ.
        pose proof (singles_loop W HW h Hn Vs tol E0 (cj j) (Dj j) (Dj_space j Lj) true _ G6) as X1.
        pose proof (ss_loop W HW h Hn Vs tol E0 (cj j) (Dj j) (Dj_space j Lj) true _ G6) as X2.
        cbn [negb str shift_of] in X1, X2. cbn [str]. rewrite X1, X2.
        assert (ST : sat (str W false (Dj j)) con = true) by (unfold sat; cbn [str]; rewrite Ea; exact SA).
        rewrite !run_ok; auto.
        - intros t It Pt. unfold ckept. rewrite ST. rewrite !in_app_iff, !filter_In. auto 8.
        - intros t It Pt. unfold ckept. rewrite ST. rewrite !in_app_iff, !filter_In. auto 8. }
      rewrite mapM_map in E4. cbv zeta in E4. rewrite E4. cbn [bind]. eexists. split; [reflexivity|].
      assert (EF : flat_map cc (idx al) = flat_map (fun j => f1 j ++ (f2 j ++ (f3 j ++ (if sat al con then f4 j else [])))) (idx al)).
      { apply flat_map_ext_in. intros j Hj. destruct (HI j Hj) as [Lj Ea]. unfold cc, ccontribs, ckept. cbn [str]. rewrite Ea.
        rewrite !map_app. unfold f1, f2, f3, f4, pv. destruct (sat al con); [rewrite map_app|]; reflexivity. }
      rewrite EF, <- !flat_map_app_perm, !flat_map_concat_map. apply Permutation_app_head, Permutation_app_head, Permutation_app_head.
      destruct (sat al con); [reflexivity|]. rewrite <- flat_map_concat_map, flat_map_nil; auto.
    Qed.
  End CON.
End LOOP.

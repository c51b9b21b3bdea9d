(** Contributions under a constraint. *)
From Coq Require Import QArith Qcanon Sorting.Permutation Sorting.Sorted.
From Verif Require Import Base Nondet Bits BitsProofs SD Spec SDProofs SDProofs2 SDProofs3 SDProofs4 SDProofs5 Sums
  FockSpec FockProofs SlaterCondon Ham
  HamProofs HamProofs2 HamProofs3 HamProofs4 HamProofs5 HamProofs6 HamProofs7 HamProofs8 PropsHamGlue
  Asci AsciSpec AsciSort AsciContrib AsciContrib2 AsciSearch
  Constraint ConstraintSpec ConstraintProofs ConstraintProofs2 ConstraintProofs3 ConstraintDist.
Local Open Scope nat_scope.

Lemma fls_loop_ok W x : wf W x -> fls_loop W x (bs_count x) = Ok (rev (positions W x)).
Proof.
  remember (bs_count x) as c eqn:Ec. revert x Ec. induction c as [|c IH]; intros x Ec Hx; cbn [fls_loop].
  - symmetry in Ec. rewrite count_0 in Ec. replace (positions W x) with (@nil nat); auto.
    destruct (positions W x) as [|k l] eqn:E; auto. assert (I : In k (positions W x)) by (rewrite E; left; auto).
    apply positions_In' in I; auto. rewrite Ec in I. discriminate.
  - destruct (high_exists W x) as (i & Li & Hi); auto; [intros ->; discriminate|].
    rewrite (fls_high W x i) by auto. cbn [bind]. unfold bs_flip. destruct (Nat.ltb_spec i W); [|lia]. cbn [bind].
    destruct Hi as [Ti Hi].
    assert (T : forall k, tb (flipb x i) k = tb x k && negb (k =? i)).
    { intros k. rewrite tb_flip. destruct (Nat.eqb_spec k i) as [->|]; [rewrite Ti; reflexivity|].
      rewrite xorb_false_r, andb_true_r. reflexivity. }
    assert (Wf : wf W (flipb x i)) by (intros k Hk; rewrite T, Hx; auto).
    assert (EC : c = bs_count (flipb x i)).
    { assert (bs_count x = bs_count (flipb 0 i) + bs_count (flipb x i)).
      { apply count_split; intros k; rewrite T, tb_flip, tb_0, xorb_false_l; destruct (Nat.eqb_spec k i) as [->|]; auto.
        - rewrite andb_true_r. reflexivity.
        - rewrite andb_false_r. reflexivity.
        - discriminate. }
      replace (bs_count (flipb 0 i)) with 1 in H0; [lia|]. symmetry. apply count_1. exists i. intros k.
      rewrite tb_flip, tb_0. apply xorb_false_l. }
    rewrite (IH (flipb x i)) by auto. cbn [bind]. f_equal.
    assert (EP : positions W x = positions W (flipb x i) ++ [i]).
    { apply sorted_ext; [apply positions_sorted| |].
      - assert (SA : forall l, StronglySorted lt l -> (forall z, In z l -> z < i) -> StronglySorted lt (l ++ [i])).
        { clear. induction 1 as [|a l HS IH Ha]; intros H; cbn [app]; [repeat constructor|]. constructor.
          - apply IH. intros; apply H; right; auto.
          - rewrite Forall_forall in *. intros z Hz. apply in_app_or in Hz. destruct Hz as [Hz|[<-|[]]]; auto.
            apply H. left; auto. }
        apply SA; [apply positions_sorted|]. intros z Hz. apply positions_In' in Hz; auto. rewrite T in Hz.
        apply andb_prop in Hz. destruct Hz as [Hz Ne]. destruct (Nat.lt_trichotomy z i) as [L|[L|L]]; auto.
        + subst z. rewrite Nat.eqb_refl in Ne. discriminate.
        + rewrite Hi in Hz by auto. discriminate.
      - intros z. rewrite in_app_iff, !positions_In' by auto. rewrite T. cbn [In]. split.
        + intros Hz. destruct (Nat.eqb_spec z i); auto. left. rewrite Hz. reflexivity.
        + intros [Hz|[<-|[]]]; auto. apply andb_prop in Hz. tauto. }
    rewrite EP, rev_app_distr. reflexivity.
Qed.

(* bounds of a two-orbital mask *)
Lemma mask2_low W i j : i < j -> j < W -> ffs_m1 UB W (flip2 0 (i, j)) = Ok i.
Proof.
  intros H1 H2. apply ffs_m1_low.
  - intros k Hk. unfold flip2. cbn [fst snd]. rewrite !tb_flip, tb_0.
    destruct (Nat.eqb_spec k i), (Nat.eqb_spec k j); auto; lia.
  - split.
    + unfold flip2. cbn [fst snd]. rewrite !tb_flip, tb_0, Nat.eqb_refl. destruct (Nat.eqb_spec i j); auto; lia.
    + intros k Hk. unfold flip2. cbn [fst snd]. rewrite !tb_flip, tb_0.
      destruct (Nat.eqb_spec k i), (Nat.eqb_spec k j); auto; lia.
Qed.
Lemma mask2_high W i j : i < j -> j < W -> fls W (flip2 0 (i, j)) = Ok j.
Proof.
  intros H1 H2. apply fls_high.
  - intros k Hk. unfold flip2. cbn [fst snd]. rewrite !tb_flip, tb_0.
    destruct (Nat.eqb_spec k i), (Nat.eqb_spec k j); auto; lia.
  - split.
    + unfold flip2. cbn [fst snd]. rewrite !tb_flip, tb_0, Nat.eqb_refl. destruct (Nat.eqb_spec j i); auto; lia.
    + intros k Hk. unfold flip2. cbn [fst snd]. rewrite !tb_flip, tb_0.
      destruct (Nat.eqb_spec k i), (Nat.eqb_spec k j); auto; lia.
Qed.

Lemma list_prod_nil_r {A B} (l : list A) : list_prod l (@nil B) = [].
Proof. induction l; auto. Qed.

Lemma spin_width_64 W : spin_width W -> (N.of_nat W < 2 ^ 64)%N.
Proof. intros [-> | ->]; reflexivity. Qed.

Section CL.
  Variables (W : nat) (HW : spin_width W) (h : ints).
  Notation n := (norb h).
  Hypothesis Hn : n <= W / 2.
  Hypothesis Vs : forall p q r s, p < n -> q < n -> r < n -> s < n ->
     V_pqrs h p q r s = V_pqrs h r s p q.
  Notation Hm := (ham W n (T_pq h) (V_pqrs h)).
  Variables (tol E0 coeff : Qc) (D : N).
  Hypothesis G : in_space W n D.
  Variable con : constraint.
  Hypothesis Hc : valid_con n con.
  Notation C := (con_C con).
  Notation B := (con_B con).
  Notation Om := (mask W n).
  Notation al := (str W false D).
  Notation be := (str W true D).
  Notation bstr := (bs_shl W be (W / 2)).
  Notation co := (con_o W n con al).
  Notation cv := (con_v W n con al).
  Notation bad := (bad W h E0).
  Notation val := (val W h E0 coeff D).

  Definition bigc t : bool := negb (abs_lt (coeff * Hm t D)%Qc tol).
  Definition runc (P : N -> bool) (l : list N) : res (list contrib) :=
    if existsb (fun t => P t && bad t) l then Err NonFinite else Ok (map (fun t => (t, val t)) (filter P l)).

  Definition cT1 : list N := map (fun ia => ex1 W D false (fst ia) (snd ia)) (list_prod (rev co) (rev cv)).
  Definition cT2 : list N := map (fun q => let '((i, j), (a, b)) := q in ex2 W D false i a j b)
    (list_prod (dO W con al) (dV W con al)).
  Definition cTO : list N :=
    map (fun q => exo W D (fst (fst q)) (snd (fst q)) (fst (snd q)) (snd (snd q)))
      (list_prod (list_prod (rev co) (rev cv)) (list_prod (positions n be) (virt n be))).

  Lemma nW : n <= W. Proof. pose proof (spin_width_half W HW). lia. Qed.
  Lemma al_wf : wf n al. Proof. apply G. Qed.
  Lemma D_join : N.lor al bstr = D.
  Proof.
    pose proof (spin_width_half W HW) as WH. assert (WD : wf W D) by (eapply in_space_wf; eauto).
    apply tb_ext. intros k. rewrite tb_or, tb_bs_shl, !tb_str_all. unfold so. cbn [orb].
    destruct (Nat.ltb_spec k (W / 2)), (Nat.ltb_spec k W), (Nat.leb_spec (W / 2) k); try lia; cbn [andb orb];
      rewrite ?orb_false_r; auto.
    - f_equal. lia.
    - rewrite WD; auto.
  Qed.
  Lemma flip0 x k : k < n -> bs_flip W x k = Ok (flipb x (so W false k)).
  Proof. intros Hk. pose proof (flip_so W HW h Hn x false k Hk) as F. cbn [shift_of] in F. rewrite Nat.add_0_r in F. exact F. Qed.
  Lemma co_In i a : In i co -> In a cv ->
    i < n /\ a < n /\ tb al i = true /\ tb al a = false /\ meets con (flip2 al (i, a)).
  Proof.
    intros H1 H2. destruct (proj1 (con_single_In W n con al nW (spin_width_64 W HW) Hc al_wf i a) (conj H1 H2)) as (Ti & Ta & La & M).
    repeat split; auto. destruct (Nat.lt_ge_cases i n); auto. rewrite al_wf in Ti by auto. discriminate.
  Qed.
  Lemma fdiv_val' t x : x = Hm t D ->
    (do r <- fdiv x (E0 - Hm t t)%Qc; Ok (Some (t, (coeff * r)%Qc))) =
    if bad t then Err NonFinite else Ok (Some (t, val t)).
  Proof. apply fdiv_val. Qed.
  Lemma os_vs : (bs_count (fst (con_single_ex W al C Om B)) =? 0) || (bs_count (snd (con_single_ex W al C Om B)) =? 0) = true ->
    list_prod (rev co) (rev cv) = [].
  Proof.
    destruct (single_masks_wf W n con al nW (spin_width_64 W HW) Hc al_wf) as [W1 W2].
    rewrite (count_positions W _ W1), (count_positions W _ W2). fold co cv. intros H. apply orb_prop in H.
    destruct H as [H|H]; apply Nat.eqb_eq in H.
    - destruct co; [reflexivity|discriminate].
    - destruct cv; [|discriminate]. cbn. apply list_prod_nil_r.
  Qed.

  Lemma csingles_ok ens : ens_good W h D false ens ->
    con_singles_contrib W h coeff al C Om B bstr (positions n al) (positions n be) ens tol (Hm D D) E0 = runc bigc cT1.
  Proof.
    intros He. unfold con_singles_contrib, runc. unfold cT1 at 1 2.
    destruct (single_masks_wf W n con al nW (spin_width_64 W HW) Hc al_wf) as [W1 W2].
    pose proof os_vs as OV. pose proof (fls_loop_ok W _ W1) as F1. pose proof (fls_loop_ok W _ W2) as F2. fold co in F1. fold cv in F2.
    destruct (con_single_ex W al C Om B) as [o v]. cbn [fst snd] in *.
    destruct (_ || _); [rewrite OV by auto; reflexivity|]. rewrite F1, F2. cbn [bind]. clear OV F1 F2 W1 W2 o v.
    apply (collect_ok _ (fun ia : nat * nat => ex1 W D false (fst ia) (snd ia)) bigc bad). intros [i a] Hia. cbn [fst snd].
    apply in_prod_iff in Hia. destruct Hia as [Hi Ha]. apply in_rev in Hi, Ha.
    destruct (co_In i a Hi Ha) as (Li & La & Ti & Ta & _). clear Hi Ha.
    pose proof (hv1_code W h D false i a Li La) as HV. cbn [negb] in HV.
    pose proof (ham_ex1 W h Hn Vs D false i a G Li La Ti Ta) as HM.
    destruct (T_at h a i) as [h0|]; [|discriminate HV]. cbn [bind] in *.
    destruct (sumM h0 _ _) as [h1|]; [|discriminate HV]. cbn [bind] in *. rewrite HV. cbn [bind].
    assert (AB : abs_lt (coeff * hv1 W h D false i a)%Qc tol = negb (bigc (ex1 W D false i a))).
    { unfold bigc. rewrite negb_involutive, HM. unfold abs_lt.
      replace (coeff * (sgn (sg1 al a i) * hv1 W h D false i a))%Qc with (sgn (sg1 al a i) * (coeff * hv1 W h D false i a))%Qc by ring.
      rewrite Qcabs_sgn. reflexivity. }
    rewrite AB. destruct (bigc (ex1 W D false i a)) eqn:Bg; cbn [negb]; [|reflexivity].
    rewrite D_join, flip0 by auto. cbn [bind]. rewrite flip0 by auto. cbn [bind].
    rewrite (sign_ex1 W h Hn D false i a G Li La Ti Ta W) by apply nW. cbn [bind].
    pose proof (diag_ex1 W HW h Hn Vs D false i a ens G Li La Ti Ta He) as DG.
    destruct (at_ ens i) as [ei|]; [|discriminate DG]. cbn [bind] in *.
    destruct (at_ ens a) as [ea|]; [|discriminate DG]. cbn [bind] in *. rewrite DG. cbn [bind].
    apply (fdiv_val' (ex1 W D false i a)); auto. rewrite HM. ring.
  Qed.

  Lemma cos_ok ens1 ens2 : ens_good W h D false ens1 -> ens_good W h D true ens2 ->
    con_os_doubles_contrib W h coeff al C Om B bstr (positions n be) (virt n be) ens1 ens2 tol (Hm D D) E0 = runc bigc cTO.
  Proof.
    intros He1 He2. unfold con_os_doubles_contrib, runc. unfold cTO at 1 2.
    destruct (single_masks_wf W n con al nW (spin_width_64 W HW) Hc al_wf) as [W1 W2].
    pose proof os_vs as OV. pose proof (fls_loop_ok W _ W1) as F1. pose proof (fls_loop_ok W _ W2) as F2. fold co in F1. fold cv in F2.
    destruct (con_single_ex W al C Om B) as [o v]. cbn [fst snd] in *.
    destruct (_ || _); [rewrite OV by auto; reflexivity|]. rewrite F1, F2. cbn [bind]. clear OV F1 F2 W1 W2 o v.
    apply (collect_ok _ (fun q : (nat * nat) * (nat * nat) =>
      exo W D (fst (fst q)) (snd (fst q)) (fst (snd q)) (snd (snd q))) bigc bad). intros [[i a] [j b]] Hq.
    apply in_prod_iff in Hq. destruct Hq as [Hia Hjb]. apply in_prod_iff in Hia, Hjb.
    destruct Hia as [Hi Ha], Hjb as [Hj Hb]. apply in_rev in Hi, Ha. apply positions_In in Hj. apply virt_In in Hb.
    destruct (co_In i a Hi Ha) as (Li & La & Ti & Ta & _). clear Hi Ha.
    destruct Hj as [Hj Tj], Hb as [Hb Tb]. cbn [fst snd].
    pose proof (ham_exo W h Hn Vs D i a j b G Li La Hj Hb Ti Ta Tj Tb) as HM.
    rewrite (sign_ex1 W h Hn D false i a G Li La Ti Ta W) by apply nW. cbn [bind].
    rewrite V_at_ok by auto. cbn [bind].
    assert (AB : abs_lt (coeff * V_pqrs h a i b j)%Qc tol = negb (bigc (exo W D i a j b))).
    { unfold bigc. rewrite negb_involutive, HM. unfold abs_lt.
      replace (coeff * (sgn (sg1 al a i) * sgn (sg1 be b j) * V_pqrs h a i b j))%Qc
        with (sgn (sg1 al a i) * (sgn (sg1 be b j) * (coeff * V_pqrs h a i b j)))%Qc by ring.
      rewrite !Qcabs_sgn. reflexivity. }
    rewrite AB. destruct (bigc (exo W D i a j b)) eqn:Bg; cbn [negb]; [|reflexivity].
    assert (HB : bitset_hi_word W bstr = be).
    { rewrite <- beta_hi.
      - apply tb_ext. intros k. change (tb (str W true bstr) k = tb be k). rewrite tb_str_all. unfold so. cbn [orb andb].
        rewrite tb_bs_shl. pose proof (spin_width_half W HW). destruct (Nat.ltb_spec (k + W / 2) W), (Nat.leb_spec (W / 2) (k + W / 2)); try lia; cbn [andb].
        + f_equal. lia.
        + symmetry. assert (WB : wf n be) by apply G. apply WB. lia.
      - auto.
      - intros k Hk. rewrite tb_bs_shl. destruct (Nat.ltb_spec k W); [lia|reflexivity]. }
    rewrite HB. rewrite (sign_ex1 W h Hn D true j b G Hj Hb Tj Tb (W / 2)) by auto. cbn [bind].
    rewrite D_join, flip0 by auto. cbn [bind]. rewrite flip0 by auto. cbn [bind].
    pose proof (fun x => flip_so W HW h Hn x true j Hj) as F3. cbn [shift_of] in F3. rewrite F3. cbn [bind].
    pose proof (fun x => flip_so W HW h Hn x true b Hb) as F4. cbn [shift_of] in F4. rewrite F4. cbn [bind].
    fold (ex1 W D false i a). fold (ex1 W (ex1 W D false i a) true j b). fold (exo W D i a j b).
    pose proof (diag_exo W HW h Hn Vs D i a j b ens1 ens2 G Li La Hj Hb Ti Ta Tj Tb He1 He2) as DG.
    destruct (at_ ens1 i) as [ei|]; [|discriminate DG]. cbn [bind] in *.
    destruct (at_ ens2 j) as [ej|]; [|discriminate DG]. cbn [bind] in *.
    destruct (at_ ens1 a) as [ea|]; [|discriminate DG]. cbn [bind] in *.
    destruct (at_ ens2 b) as [eb|]; [|discriminate DG]. cbn [bind] in *. rewrite DG. cbn [bind].
    apply (fdiv_val' (exo W D i a j b)); auto.
  Qed.

  Lemma collect_map {A A' R} (f : A -> res (option R)) (g : A' -> A) l : collect f (map g l) = collect (fun x => f (g x)) l.
  Proof. induction l as [|x l IH]; auto. cbn [map collect]. rewrite IH. reflexivity. Qed.
  Lemma prod_map {A A' R R'} (f : A -> R) (g : A' -> R') l l' :
    list_prod (map f l) (map g l') = map (fun q => (f (fst q), g (snd q))) (list_prod l l').
  Proof.
    induction l as [|x l IH]; auto. cbn [map list_prod]. rewrite IH, map_app, !map_map. reflexivity.
  Qed.
  Lemma dOV_In i j a b : In (i, j) (dO W con al) -> In (a, b) (dV W con al) ->
    ((i < n /\ j < n) /\ (a < n /\ b < n)) /\ (tb al i = true /\ tb al j = true /\ i < j) /\
    (tb al a = false /\ tb al b = false /\ a < b) /\ meets con (flip4 al (i, a, j, b)).
  Proof.
    intros H1 H2. destruct (proj1 (con_double_In W n con al nW (spin_width_64 W HW) Hc al_wf i j a b) (conj H1 H2)) as (A & A' & La & Lb & M).
    repeat split; try tauto.
    - destruct (Nat.lt_ge_cases i n); auto. destruct A as (Ti & _). rewrite al_wf in Ti by auto. discriminate.
    - destruct (Nat.lt_ge_cases j n); auto. destruct A as (_ & Ti & _). rewrite al_wf in Ti by auto. discriminate.
  Qed.
  Lemma css_ok ens : ens_good W h D false ens ->
    con_ss_doubles_contrib W h coeff al C Om B bstr ens tol (Hm D D) E0 = runc bigc cT2.
  Proof.
    intros He. unfold con_ss_doubles_contrib, runc. unfold cT2 at 1 2.
    rewrite (con_double_ok W n con al nW (spin_width_64 W HW) Hc al_wf). cbn [bind fst snd].
    destruct (Nat.eqb_spec (length (map (flip2 0) (dO W con al))) 0) as [Z|Z].
    { rewrite map_length in Z. destruct (dO W con al); [reflexivity|discriminate]. }
    destruct (Nat.eqb_spec (length (map (flip2 0) (dV W con al))) 0) as [Z'|Z'].
    { rewrite map_length in Z'. destruct (dV W con al); [|discriminate]. cbn [orb]. rewrite list_prod_nil_r. reflexivity. }
    cbn [orb]. clear Z Z'. rewrite prod_map, collect_map.
    apply (collect_ok _ (fun q : (nat * nat) * (nat * nat) => let '((i, j), (a, b)) := q in ex2 W D false i a j b) bigc bad).
    intros [[i j] [a b]] Hq. apply in_prod_iff in Hq. destruct Hq as [H1 H2]. cbn [fst snd].
    pose proof (mask_flip4 W n con al nW (spin_width_64 W HW) Hc al_wf i j a b H1 H2) as MF.
    destruct (dOV_In i j a b H1 H2) as (((Li & Lj) & (La & Lb)) & (Ti & Tj & Lij) & (Ta & Tb & Lab) & _). clear H1 H2.
    pose proof nW as NW.
    rewrite (mask2_low W i j), (mask2_high W i j), (mask2_low W a b), (mask2_high W a b) by lia. cbn [bind].
    pose proof (ham_ex2 W h Hn Vs D false i a j b G Li La Lj Lb Lij Lab Ti Ta Tj Tb) as HM.
    rewrite G_at_ok by auto. cbn [bind].
    assert (AB : abs_lt (coeff * G_pqrs h b j a i)%Qc tol = negb (bigc (ex2 W D false i a j b))).
    { unfold bigc. rewrite negb_involutive, HM. unfold abs_lt.
      replace (coeff * (sgn (sg2 al a b j i) * G_pqrs h b j a i))%Qc
        with (sgn (sg2 al a b j i) * (coeff * G_pqrs h b j a i))%Qc by ring.
      rewrite Qcabs_sgn. reflexivity. }
    rewrite AB. destruct (bigc (ex2 W D false i a j b)) eqn:Bg; cbn [negb]; [|reflexivity].
    rewrite MF.
    assert (E2 : N.lor (flip2 0 (i, j)) (flip2 0 (a, b)) = N.lxor (flip4 al (i, a, j, b)) al).
    { apply tb_ext. intros k. unfold flip2, flip4. cbn [fst snd]. rewrite tb_or, tb_xor, !tb_flip, tb_0, !xorb_false_l.
      destruct (Nat.eqb_spec k i), (Nat.eqb_spec k j), (Nat.eqb_spec k a), (Nat.eqb_spec k b), (tb al k) eqn:E;
        subst; auto; try lia; congruence. }
    rewrite E2. rewrite (sign_ex2 W h Hn D false i a j b G Li La Lj Lb Lij Lab Ti Ta Tj Tb W) by auto. cbn [bind].
    assert (E3 : N.lor (flip4 al (i, a, j, b)) bstr = ex2 W D false i a j b).
    { pose proof (spin_width_half W HW) as WH. apply tb_ext. intros k. unfold ex2, ex1, flip4, so.
      pose proof (f_equal (fun x => tb x k) D_join) as DJ. cbn beta in DJ. rewrite tb_or, tb_bs_shl in DJ.
      rewrite tb_or, !tb_flip, <- DJ, tb_bs_shl. clear DJ.
      destruct (Nat.ltb_spec k W), (Nat.leb_spec (W / 2) k); cbn [andb];
        repeat match goal with |- context [?x =? ?y] => destruct (Nat.eqb_spec x y); try lia end;
        rewrite ?xorb_false_r; auto; rewrite ?orb_false_r; auto. }
    rewrite E3.
    pose proof (diag_ex2 W HW h Hn Vs D false i a j b ens G Li La Lj Lb Lij Lab Ti Ta Tj Tb He) as DG.
    destruct (at_ ens i) as [ei|]; [|discriminate DG]. cbn [bind] in *.
    destruct (at_ ens j) as [ej|]; [|discriminate DG]. cbn [bind] in *.
    destruct (at_ ens a) as [ea|]; [|discriminate DG]. cbn [bind] in *.
    destruct (at_ ens b) as [eb|]; [|discriminate DG]. cbn [bind] in *. rewrite DG. cbn [bind].
    apply (fdiv_val' (ex2 W D false i a j b)); auto.
  Qed.
End CL.

(** Incremental diagonal elements (C16). *)
From Coq Require Import QArith Qcanon Sorting.Permutation.
From Verif Require Import Base Bits BitsProofs SD Spec SDProofs SDProofs2 SDProofs4 SDProofs5 Sums
  FockSpec FockProofs SlaterCondon Ham HamProofs HamProofs2 HamProofs3 HamProofs4 HamProofs5.
Local Open Scope nat_scope.

(** energy of a list of occupied orbitals with pair interaction A *)
Definition FE (hd : nat -> Qc) (A : nat -> nat -> Qc) (l : list nat) : Qc :=
  (sum l hd + half * sum l (fun y => sum l (fun w => A y w)))%Qc.

Lemma FE_perm hd A l l' : Permutation l l' -> FE hd A l = FE hd A l'.
Proof.
  intros P. unfold FE. rewrite (sum_perm _ _ _ P), (sum_perm _ _ _ P). f_equal. f_equal.
  apply sum_ext. intros y _. apply sum_perm. exact P.
Qed.
Lemma FE_cons hd A x l : A x x = 0%Qc -> (forall y, In y l -> A y x = A x y) ->
  FE hd A (x :: l) = (hd x + FE hd A l + sum l (fun w => A x w))%Qc.
Proof.
  intros A0 As. unfold FE. cbn [sum]. rewrite A0, sum_plus.
  rewrite (sum_ext l (fun y => A y x) (fun y => A x y)) by auto.
  set (S := sum l (fun y => A x y)).
  transitivity (hd x + sum l hd + half * sum l (fun y => sum l (fun w => A y w)) + (half * S + half * S))%Qc.
  - ring.
  - rewrite half_half. ring.
Qed.

Section FD.
  Variables (W : nat) (HW : spin_width W) (h : ints).
  Notation n := (norb h).
  Hypothesis Hn : n <= W / 2.
  Hypothesis Vsym : forall p q r s, p < n -> q < n -> r < n -> s < n ->
    V_pqrs h p q r s = V_pqrs h r s p q.
  Notation L := (SO W n).
  Notation v := (lift2 W (V_pqrs h)).
  Definition hd x := lift1 W (T_pq h) x x.
  Definition A x w := (v x x w w - v w x x w)%Qc.
  Definition occl (D : N) : list nat := filter (tb D) L.
  Definition E D := ham W n (T_pq h) (V_pqrs h) D D.
  Definition eps D x : Qc := (hd x + sum (occl D) (fun w => A x w))%Qc.

  Lemma E_FE D : in_space W n D -> E D = FE hd A (occl D).
  Proof.
    intros S. unfold E. rewrite ham_E by auto.
    assert (Hk : forall i, tb D i = true -> In i L) by (intros i; apply in_SO; auto).
    rewrite (E1_diag L (SO_NoDup W n Hn) _ (fun _ _ _ _ => 0%Qc) D D Hk eq_refl).
    rewrite (E2_diag L (SO_NoDup W n Hn) (fun _ _ => 0%Qc) _ D D Hk eq_refl). reflexivity.
  Qed.

  Lemma A_so s p t q : p < n -> q < n -> A (so W s p) (so W t q) =
    if eqb s t then G_pqrs h p p q q else V_pqrs h p p q q.
  Proof.
    intros Hp Hq. unfold A. rewrite !(lift2_so W n) by auto. rewrite !eqb_reflx. cbn [andb].
    unfold G_pqrs. destruct s, t; cbn [eqb andb]; try ring; rewrite (Vsym q p p q) by auto; ring.
  Qed.
  Lemma A_sym x w : In x L -> In w L -> A x w = A w x.
  Proof.
    intros Hx Hw. apply (SO_In W n) in Hx; auto. apply (SO_In W n) in Hw; auto.
    destruct Hx as (s & p & Hp & ->), Hw as (t & q & Hq & ->). rewrite !A_so by auto.
    unfold G_pqrs. rewrite (Vsym p p q q), (Vsym p q q p) by auto.
    destruct s, t; reflexivity.
  Qed.
  Lemma A_diag x : A x x = 0%Qc.
  Proof. unfold A. ring. Qed.

  Lemma G2_A s p q : p < n -> q < n -> (G2 h p q + G2 h q p)%Qc = A (so W s p) (so W s q).
  Proof.
    intros Hp Hq. rewrite A_so, eqb_reflx by auto. unfold G2, G_pqrs.
    rewrite (Vsym q q p p), (Vsym q p p q) by auto. rewrite half_half. reflexivity.
  Qed.
  Lemma V2_A s p q : p < n -> q < n -> V_pqrs h p p q q = A (so W s p) (so W (negb s) q).
  Proof. intros Hp Hq. rewrite A_so by auto. destruct s; reflexivity. Qed.

  Lemma hd_so s p : p < n -> hd (so W s p) = T_pq h p p.
  Proof. intros Hp. unfold hd. rewrite (lift1_so W n), eqb_reflx by auto. reflexivity. Qed.

  Lemma eps_ok D s p : in_space W n D -> p < n ->
    single_orbital_en h p (positions n (str W s D)) (positions n (str W (negb s) D)) =
    Ok (eps D (so W s p)).
  Proof.
    intros S Hp. unfold single_orbital_en. rewrite T_at_ok by auto. cbn [bind].
    rewrite (sumM_ok _ _ (fun q => (G2 h p q + G2 h q p)%Qc)).
    2:{ intros q Hq. apply (pos_lt W h Hn) in Hq. rewrite !G2_at_ok by auto. reflexivity. }
    cbn [bind]. rewrite G2_at_ok by auto. cbn [bind].
    rewrite (sumM_ok _ _ (fun q => V_pqrs h p p q q)).
    2:{ intros q Hq. apply (pos_lt W h Hn) in Hq. apply V2_at_ok; auto. }
    f_equal. unfold eps, occl. rewrite sum_occ by auto. rewrite (sum_spins_pick s).
    rewrite hd_so by auto.
    rewrite (sum_ext (positions n (str W s D)) (fun q => A (so W s p) (so W s q))
              (fun q => (G2 h p q + G2 h q p)%Qc)).
    2:{ intros q Hq. apply (pos_lt W h Hn) in Hq. symmetry. apply G2_A; auto. }
    rewrite (sum_ext (positions n (str W (negb s) D)) (fun q => A (so W s p) (so W (negb s) q))
              (fun q => V_pqrs h p p q q)).
    2:{ intros q Hq. apply (pos_lt W h Hn) in Hq. symmetry. apply V2_A; auto. }
    unfold G2, G_pqrs at 3. ring.
  Qed.

  (** occupied list after flipping holes to particles *)
  Lemma occl_NoDup D : NoDup (occl D).
  Proof. apply NoDup_filter, SO_NoDup; auto. Qed.
  Lemma occl_In D x : In x (occl D) <-> In x L /\ tb D x = true.
  Proof. apply filter_In. Qed.

  Lemma so_In s p : p < n -> In (so W s p) L.
  Proof. intros H. apply SO_In; auto. exists s, p. auto. Qed.

  Lemma split_occ D o : In o (occl D) -> exists R, Permutation (occl D) (o :: R) /\ NoDup (o :: R).
  Proof.
    intros H. apply in_split in H. destruct H as (l1 & l2 & E0). exists (l1 ++ l2).
    assert (P : Permutation (occl D) (o :: l1 ++ l2)).
    { rewrite E0. symmetry. apply Permutation_middle. }
    split; auto. eapply Permutation_NoDup; [exact P|]. apply occl_NoDup.
  Qed.

  Lemma FE_single D D' o p :
    In o L -> In p L -> tb D o = true -> tb D p = false ->
    (forall k, tb D' k = xorb (xorb (tb D k) (k =? o)) (k =? p)) ->
    FE hd A (occl D') = (FE hd A (occl D) + eps D p - eps D o - A p o)%Qc.
  Proof.
    intros Ho Hp To Tp Hb. assert (Hd : o <> p) by congruence.
    destruct (split_occ D o) as (R & P & ND). { apply occl_In. auto. }
    assert (RI : forall x, In x R <-> In x (occl D) /\ x <> o).
    { intros x. split.
      - intros Hx. split; [eapply Permutation_in; [symmetry; exact P|]; right; auto|].
        intros ->. apply NoDup_cons_iff in ND. tauto.
      - intros [Hx Nx]. eapply Permutation_in in Hx; [|exact P]. destruct Hx; [congruence|auto]. }
    assert (P' : Permutation (occl D') (p :: R)).
    { apply NoDup_Permutation; [apply occl_NoDup|constructor|].
      - rewrite RI, occl_In. intros [[_ X] _]. congruence.
      - apply NoDup_cons_iff in ND. tauto.
      - intros x. cbn [In]. rewrite RI, !occl_In, Hb.
        destruct (Nat.eqb_spec x o), (Nat.eqb_spec x p); subst; try congruence.
        + rewrite To. cbn. intuition congruence.
        + rewrite Tp. cbn. intuition.
        + rewrite !xorb_false_r. intuition congruence. }
    assert (RL : forall x, In x R -> In x L).
    { intros x Hx. apply RI in Hx. destruct Hx as [Hx _]. apply occl_In in Hx. tauto. }
    unfold eps. rewrite (FE_perm _ _ _ _ P'), (FE_perm _ _ _ _ P), !(sum_perm _ _ _ P). cbn [sum].
    rewrite !FE_cons; try apply A_diag; try (intros y Hy; apply A_sym; auto).
    rewrite A_diag. ring.
  Qed.

  Lemma fast_single D D' s o p : in_space W n D -> in_space W n D' -> o < n -> p < n ->
    tb (str W s D) o = true -> tb (str W s D) p = false ->
    (forall k, tb D' k = xorb (xorb (tb D k) (k =? so W s o)) (k =? so W s p)) ->
    fast_diag_single h (positions n (str W s D)) (positions n (str W (negb s) D)) o p (E D) = Ok (E D').
  Proof.
    intros S S' Ho Hp To Tp Hb. unfold fast_diag_single. rewrite !eps_ok by auto. cbn [bind].
    unfold fast_diag_single_en. rewrite !G2_at_ok by auto. cbn [bind]. f_equal.
    rewrite !E_FE by auto. rewrite (FE_single D D' (so W s o) (so W s p)); auto using so_In.
    - rewrite <- G2_A by auto. ring.
    - rewrite tb_str by lia. auto.
    - rewrite tb_str by lia. auto.
  Qed.

  Lemma FE_double D D' o1 o2 p1 p2 :
    In o1 L -> In p1 L -> In o2 L -> In p2 L -> o1 <> o2 -> p1 <> p2 ->
    tb D o1 = true -> tb D p1 = false -> tb D o2 = true -> tb D p2 = false ->
    (forall k, tb D' k = xorb (xorb (xorb (xorb (tb D k) (k =? o1)) (k =? o2)) (k =? p2)) (k =? p1)) ->
    FE hd A (occl D') = (FE hd A (occl D) + eps D p1 + eps D p2 - eps D o1 - eps D o2
      + A o1 o2 + A p1 p2 - A p1 o1 - A p2 o1 - A p1 o2 - A p2 o2)%Qc.
  Proof.
    intros H1 H2 H3 H4 No Np T1 U1 T2 U2 Hb.
    assert (o1 <> p1) by congruence. assert (o1 <> p2) by congruence.
    assert (o2 <> p1) by congruence. assert (o2 <> p2) by congruence.
    set (M := flipb (flipb D o1) p1).
    assert (HM : forall k, tb M k = xorb (xorb (tb D k) (k =? o1)) (k =? p1)).
    { intros k. unfold M. rewrite !tb_flip. reflexivity. }
    rewrite (FE_single M D' o2 p2); auto.
    - unfold eps.
      assert (X : forall x, In x L -> sum (occl M) (fun w => A x w) =
         (sum (occl D) (fun w => A x w) + A x p1 - A x o1)%Qc).
      { intros x Hx. destruct (split_occ D o1) as (R & P & ND). { apply occl_In. auto. }
        assert (P' : Permutation (occl M) (p1 :: R)).
        { assert (RI : forall x, In x R <-> In x (occl D) /\ x <> o1).
          { intros y. split.
            - intros Hy. split; [eapply Permutation_in; [symmetry; exact P|]; right; auto|].
              intros ->. apply NoDup_cons_iff in ND. tauto.
            - intros [Hy Ny]. eapply Permutation_in in Hy; [|exact P]. destruct Hy; [congruence|auto]. }
          apply NoDup_Permutation; [apply occl_NoDup|constructor|].
          - rewrite RI, occl_In. intros [[_ Z] _]. congruence.
          - apply NoDup_cons_iff in ND. tauto.
          - intros y. cbn [In]. rewrite RI, !occl_In, HM.
            destruct (Nat.eqb_spec y o1), (Nat.eqb_spec y p1); subst; try congruence.
            + rewrite T1. cbn. intuition congruence.
            + rewrite U1. cbn. intuition.
            + rewrite !xorb_false_r. intuition congruence. }
        rewrite (sum_perm _ _ _ P), (sum_perm _ _ _ P'). cbn [sum]. ring. }
      rewrite !X by auto. rewrite (FE_single D M o1 p1); auto. unfold eps.
      rewrite (A_sym o1 o2), (A_sym p1 p2), (A_sym p1 o2) by auto. ring.
    - rewrite HM, T2. destruct (Nat.eqb_spec o2 o1), (Nat.eqb_spec o2 p1); try congruence. reflexivity.
    - rewrite HM, U2. destruct (Nat.eqb_spec p2 o1), (Nat.eqb_spec p2 p1); try congruence. reflexivity.
    - intros k. rewrite Hb, HM.
      destruct (tb D k), (k =? o1), (k =? o2), (k =? p1), (k =? p2); reflexivity.
  Qed.

  Lemma fast_ss D D' s o1 o2 p1 p2 : in_space W n D -> in_space W n D' ->
    o1 < n -> o2 < n -> p1 < n -> p2 < n -> o1 <> o2 -> p1 <> p2 ->
    tb (str W s D) o1 = true -> tb (str W s D) o2 = true ->
    tb (str W s D) p1 = false -> tb (str W s D) p2 = false ->
    (forall k, tb D' k = xorb (xorb (xorb (xorb (tb D k) (k =? so W s o1)) (k =? so W s o2))
                           (k =? so W s p2)) (k =? so W s p1)) ->
    fast_diag_ss_double h (positions n (str W s D)) (positions n (str W (negb s) D)) o1 o2 p1 p2 (E D)
    = Ok (E D').
  Proof.
    intros S S' H1 H2 H3 H4 No Np T1 T2 U1 U2 Hb. unfold fast_diag_ss_double.
    rewrite !eps_ok by auto. cbn [bind]. unfold fast_diag_ss_double_en.
    rewrite !G2_at_ok by auto. cbn [bind]. f_equal. rewrite !E_FE by auto.
    assert (K : forall p, p < n -> tb D (so W s p) = tb (str W s D) p) by (intros; apply tb_str; lia).
    rewrite (FE_double D D' (so W s o1) (so W s o2) (so W s p1) (so W s p2)); rewrite ?K; auto using so_In.
    - rewrite <- !G2_A by auto. ring.
    - intros X. apply (so_inj W n Hn) in X; tauto.
    - intros X. apply (so_inj W n Hn) in X; tauto.
  Qed.

  Lemma fast_os D D' s o1 o2 p1 p2 : in_space W n D -> in_space W n D' ->
    o1 < n -> o2 < n -> p1 < n -> p2 < n ->
    tb (str W s D) o1 = true -> tb (str W (negb s) D) o2 = true ->
    tb (str W s D) p1 = false -> tb (str W (negb s) D) p2 = false ->
    (forall k, tb D' k = xorb (xorb (xorb (xorb (tb D k) (k =? so W s o1)) (k =? so W (negb s) o2))
                           (k =? so W (negb s) p2)) (k =? so W s p1)) ->
    fast_diag_os_double h (positions n (str W s D)) (positions n (str W (negb s) D)) o1 o2 p1 p2 (E D)
    = Ok (E D').
  Proof.
    intros S S' H1 H2 H3 H4 T1 T2 U1 U2 Hb. unfold fast_diag_os_double.
    rewrite !eps_ok by auto. cbn [bind].
    pose proof (fun p => eps_ok D (negb s) p S) as X. rewrite negb_involutive in X. rewrite !X by auto.
    cbn [bind]. unfold fast_diag_os_double_en.
    rewrite !G2_at_ok, !V2_at_ok by auto. cbn [bind]. f_equal. rewrite !E_FE by auto.
    assert (K : forall s p, p < n -> tb D (so W s p) = tb (str W s D) p) by (intros; apply tb_str; lia).
    rewrite (FE_double D D' (so W s o1) (so W (negb s) o2) (so W s p1) (so W (negb s) p2));
      rewrite ?K; auto using so_In.
    - rewrite <- !G2_A, <- !V2_A by auto. rewrite (A_sym (so W (negb s) p2)) by auto using so_In.
      rewrite <- !V2_A by auto. ring.
    - intros Y. apply (so_inj W n Hn) in Y; auto. destruct s, Y; discriminate.
    - intros Y. apply (so_inj W n Hn) in Y; auto. destruct s, Y; discriminate.
  Qed.
End FD.

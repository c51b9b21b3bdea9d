(** Proofs about determinant_contributions.hpp: every contribution is
    c * H_tD / (E0 - H_tt). *)
From Coq Require Import QArith Qcanon Sorting.Permutation Sorting.Sorted.
From Verif Require Import Base Nondet Bits BitsProofs SD Spec SDProofs SDProofs2 SDProofs3 SDProofs4 SDProofs5 Sums
  FockSpec FockProofs SlaterCondon Ham
  HamProofs HamProofs2 HamProofs3 HamProofs4 HamProofs5 HamProofs6 HamProofs7 HamProofs8 PropsHamGlue
  Asci AsciSpec AsciSort.
Local Open Scope nat_scope.

Lemma Ok_inj {A} (x y : A) : Ok x = Ok y -> x = y.
Proof. congruence. Qed.

(** ** strings of a determinant with flipped orbitals *)
Lemma tb_str_all W s x k : tb (str W s x) k = (s || (k <? W / 2)) && tb x (so W s k).
Proof.
  destruct s; cbn [str so orb andb]; unfold beta, alpha.
  - apply tb_div.
  - apply tb_mod.
Qed.
Lemma str_flip W s x p : p < W / 2 -> str W s (flipb x (so W s p)) = flipb (str W s x) p.
Proof.
  intros Hp. apply tb_ext. intros k. rewrite tb_flip, !tb_str_all, tb_flip.
  destruct s; cbn [orb andb so].
  - destruct (Nat.eqb_spec (k + W / 2) (p + W / 2)), (Nat.eqb_spec k p); try lia; reflexivity.
  - destruct (Nat.ltb_spec k (W / 2)); cbn [andb]; auto.
    destruct (Nat.eqb_spec k p); [lia|]. reflexivity.
Qed.
Lemma str_flip_other W s x p : p < W / 2 -> str W (negb s) (flipb x (so W s p)) = str W (negb s) x.
Proof.
  intros Hp. apply tb_ext. intros k. rewrite !tb_str_all, tb_flip.
  destruct s; cbn [orb andb so negb].
  - destruct (Nat.ltb_spec k (W / 2)); cbn [andb]; auto.
    destruct (Nat.eqb_spec k (p + W / 2)); [lia|]. rewrite xorb_false_r. reflexivity.
  - destruct (Nat.eqb_spec (k + W / 2) p); [lia|]. rewrite xorb_false_r. reflexivity.
Qed.
Lemma str_ext W x y : (forall s, str W s x = str W s y) -> x = y.
Proof.
  intros H. apply tb_ext. intros k. destruct (so_cover W k) as (s & p & -> & C).
  rewrite !tb_str by auto. rewrite H. reflexivity.
Qed.
Lemma str_ext2 W s x y : str W s x = str W s y -> str W (negb s) x = str W (negb s) y -> x = y.
Proof.
  intros A B. apply (str_ext W). intros t. destruct (Bool.bool_dec t s) as [->|D]; auto.
  replace t with (negb s) by (destruct t, s; cbn; congruence). auto.
Qed.
Lemma moved_flip W D s o p : o < W / 2 -> p < W / 2 -> tb (str W s D) o = true -> tb (str W s D) p = false ->
  moved W D s o p = flipb (flipb D (so W s o)) (so W s p).
Proof. intros. apply tb_ext. intros k. rewrite tb_moved, !tb_flip by auto. reflexivity. Qed.

Lemma sgn_inj a b : sgn a = sgn b -> a = b.
Proof.
  destruct a, b; auto; unfold sgn; intros H; exfalso.
  - assert (X : (-(1))%Qc = 1%Qc -> False); [|auto]. intros Q. apply (f_equal this) in Q. vm_compute in Q. discriminate.
  - assert (X : 1%Qc = (-(1))%Qc -> False); [|auto]. intros Q. apply (f_equal this) in Q. vm_compute in Q. discriminate.
Qed.
Lemma Qcabs_sgn b x : Qcabs (sgn b * x)%Qc = Qcabs x.
Proof.
  destruct b; unfold sgn; [|f_equal; ring]. replace (- (1) * x)%Qc with (- x)%Qc by ring.
  unfold Qcabs. destruct (qlt_spec (- x) 0) as [A|A], (qlt_spec x 0) as [B|B]; auto; try ring.
  - exfalso. apply Qclt_minus_iff in B. rewrite Qcplus_0_l in B.
    apply (Qclt_not_le _ _ A). apply Qclt_le_weak, B.
  - apply Qcnot_lt_le in A, B.
    assert (x = 0)%Qc as ->; [|ring]. apply Qcle_antisym; auto.
    apply Qcopp_le_compat in A. rewrite Qcopp_involutive in A. replace (- 0)%Qc with 0%Qc in A by ring. exact A.
Qed.

Section FACTS.
  Variables (W : nat) (HW : spin_width W) (h : ints).
  Notation n := (norb h).
  Hypothesis Hn : n <= W / 2.
  Hypothesis Vs : forall p q r s, p < n -> q < n -> r < n -> s < n ->
     V_pqrs h p q r s = V_pqrs h r s p q.
  Notation Hm := (ham W n (T_pq h) (V_pqrs h)).
  Notation occ D s := (positions n (str W s D)).

  Lemma ens_ok D s : in_space W n D -> exists ens,
    single_orbital_ens h n (occ D s) (occ D (negb s)) = Ok ens /\
    forall i, i < n -> exists e, at_ ens i = Ok e /\
      single_orbital_en h i (occ D s) (occ D (negb s)) = Ok e.
  Proof.
    intros G.
    assert (X : exists g, forall i, In i (seq 0 n) -> single_orbital_en h i (occ D s) (occ D (negb s)) = Ok (g i)).
    { eexists. intros i Hi. apply in_seq in Hi. apply (eps_ok W h Hn Vs D s i); auto; lia. }
    destruct X as [g Hg]. exists (map g (seq 0 n)). split; [apply mapM_ok, Hg|].
    intros i Hi. exists (g i). split; [|apply Hg, in_seq; lia].
    unfold at_. rewrite nth_error_map. rewrite (nth_error_nth' _ 0) by (rewrite seq_length; lia).
    rewrite seq_nth by lia. reflexivity.
  Qed.

  Definition ex1 D s i a := flipb (flipb D (so W s i)) (so W s a).

  Section SINGLE.
    Variables (D : N) (s : bool) (i a : nat) (ens : list Qc).
    Hypothesis G : in_space W n D.
    Hypothesis (Hi : i < n) (Ha : a < n) (Ti : tb (str W s D) i = true) (Ta : tb (str W s D) a = false).
    Hypothesis Hens : forall i, i < n -> exists e, at_ ens i = Ok e /\
      single_orbital_en h i (occ D s) (occ D (negb s)) = Ok e.
    Notation t := (ex1 D s i a).

    Lemma ex1_moved : t = moved W D s i a.
    Proof. unfold ex1. rewrite moved_flip; auto; lia. Qed.
    Lemma ex1_space : in_space W n t.
    Proof. rewrite ex1_moved. apply moved_space; auto. Qed.
    Lemma ex1_str : str W s t = flip2 (str W s D) (i, a) /\ str W (negb s) t = str W (negb s) D.
    Proof.
      unfold ex1, flip2. cbn [fst snd]. rewrite !str_flip, !str_flip_other by lia. auto.
    Qed.

    Definition hv1 : Qc := (T_pq h a i + sum (occ D s) (fun p => G_pqrs h p p a i) +
      sum (occ D (negb s)) (fun p => V_pqrs h p p a i))%Qc.
    Lemma hv1_code : (do h0 <- T_at h a i;
      do h1 <- sumM h0 (occ D s) (fun p => Gred_at h p a i);
      sumM h1 (occ D (negb s)) (fun p => Vred_at h p a i)) = Ok hv1.
    Proof.
      rewrite T_at_ok by auto. cbn [bind].
      rewrite (sumM_ok _ _ (fun p => G_pqrs h p p a i)).
      2:{ intros p Hp. apply positions_In in Hp. apply G_at_ok; tauto. }
      cbn [bind]. rewrite (sumM_ok _ _ (fun p => V_pqrs h p p a i)).
      2:{ intros p Hp. apply positions_In in Hp. apply V_at_ok; tauto. }
      reflexivity.
    Qed.
    Lemma ham_ex1 : Hm t D = (sgn (sg1 (str W s D) a i) * hv1)%Qc.
    Proof.
      destruct ex1_str as [Es En]. pose proof ex1_space as Gt.
      assert (Ws : wf n (str W s D)) by (apply (str_wf W h), G).
      pose proof (me_single W h Hn Vs t D Gt G s i a Ti Ta Hi Ha Es En) as M.
      unfold matrix_element_2 in M. rewrite Es in M at 1 2.
      rewrite single_ok in M; auto; try lia. 2:{ eapply wf_le; [|exact Ws]. lia. }
      cbn [bind] in M. rewrite T_at_ok in M by auto. cbn [bind] in M.
      rewrite (sumM_ok _ _ (fun p => G_pqrs h p p a i)) in M.
      2:{ intros p Hp. apply positions_In in Hp. apply G_at_ok; tauto. }
      cbn [bind] in M. rewrite (sumM_ok _ _ (fun p => V_pqrs h p p a i)) in M.
      2:{ intros p Hp. apply positions_In in Hp. apply V_at_ok; tauto. }
      cbn [bind] in M. apply Ok_inj in M. rewrite <- M. clear M. f_equal. unfold hv1. rewrite En. f_equal. f_equal.
      rewrite Es. rewrite (sum_perm _ _ _ (occ_after_single W h Hn _ i a Ti Ta Hi Ha Ws)). cbn [sum].
      rewrite sum_filter. replace (G_pqrs h a a a i) with 0%Qc.
      2:{ unfold G_pqrs. rewrite (Vs a a a i) by auto. ring. }
      rewrite Qcplus_0_l. apply sum_ext. intros p Hp. destruct (Nat.eqb_spec p i) as [->|]; cbn [negb]; auto.
      unfold G_pqrs. ring.
    Qed.
    Lemma sign_ex1 w : n <= w -> single_excitation_sign w (str W s D) a i = Ok (sg1 (str W s D) a i).
    Proof.
      intros Hw. assert (wf n (str W s D)) by (apply (str_wf W h), G).
      apply sign_ok; auto; try lia; try congruence. eapply wf_le; [|eauto]. auto.
    Qed.
    Lemma diag_ex1 : (do ei <- at_ ens i; do ea <- at_ ens a;
      fast_diag_single_en h ei ea i a (Hm D D)) = Ok (Hm t t).
    Proof.
      destruct (Hens i Hi) as (ei & Ai & Ei), (Hens a Ha) as (ea & Aa & Ea).
      pose proof (c16_single W h D s i a HW Hn Vs G Hi Ha Ti Ta) as M. cbn zeta in M.
      unfold fast_diag_single in M. rewrite Ei, Ea in M. cbn [bind] in M.
      rewrite Ai, Aa. cbn [bind]. rewrite ex1_moved. exact M.
    Qed.
  End SINGLE.

  Definition ex2 D s i a j b := ex1 (ex1 D s i a) s j b.
  Section SAME.
    Variables (D : N) (s : bool) (i a j b : nat) (ens : list Qc).
    Hypothesis G : in_space W n D.
    Hypothesis (Hi : i < n) (Ha : a < n) (Hj : j < n) (Hb : b < n) (Lij : i < j) (Lab : a < b).
    Hypothesis (Ti : tb (str W s D) i = true) (Ta : tb (str W s D) a = false).
    Hypothesis (Tj : tb (str W s D) j = true) (Tb : tb (str W s D) b = false).
    Hypothesis Hens : forall i, i < n -> exists e, at_ ens i = Ok e /\
      single_orbital_en h i (occ D s) (occ D (negb s)) = Ok e.
    Notation t := (ex2 D s i a j b).

    Lemma ex2_mid : tb (str W s (ex1 D s i a)) j = true /\ tb (str W s (ex1 D s i a)) b = false.
    Proof.
      destruct (ex1_str D s i a Hi Ha) as [-> _]. unfold flip2. cbn [fst snd]. rewrite !tb_flip, Tj, Tb.
      destruct (Nat.eqb_spec j i), (Nat.eqb_spec j a), (Nat.eqb_spec b i), (Nat.eqb_spec b a); try lia;
        try congruence; auto.
    Qed.
    Lemma ex2_moved : t = moved W (moved W D s i a) s j b.
    Proof.
      destruct ex2_mid as [A B]. unfold ex2. rewrite (ex1_moved (ex1 D s i a) s j b) by auto.
      rewrite (ex1_moved D s i a) by auto. reflexivity.
    Qed.
    Lemma ex2_space : in_space W n t.
    Proof. destruct ex2_mid. apply ex1_space; auto. apply ex1_space; auto. Qed.
    Lemma ex2_str : str W s t = flip4 (str W s D) (i, a, j, b) /\ str W (negb s) t = str W (negb s) D.
    Proof.
      unfold ex2. destruct (ex1_str (ex1 D s i a) s j b Hj Hb) as [-> ->].
      destruct (ex1_str D s i a Hi Ha) as [-> ->]. auto.
    Qed.
    Lemma ham_ex2 : Hm t D = (sgn (sg2 (str W s D) a b j i) * G_pqrs h b j a i)%Qc.
    Proof.
      destruct ex2_str as [Es En]. pose proof ex2_space as Gt.
      assert (Ws : wf n (str W s D)) by (apply (str_wf W h), G).
      pose proof (me_double_same W h Hn Vs t D Gt G s i a j b Hi Ha Hj Hb Ti Tj Ta Tb Lij Lab Es En) as M.
      unfold matrix_element_4 in M. rewrite Es in M.
      rewrite double_ok in M; auto; try lia. 2:{ eapply wf_le; [|exact Ws]. lia. }
      cbn [bind] in M. rewrite G_at_ok in M by auto. cbn [bind] in M. apply Ok_inj in M. rewrite <- M. clear M. f_equal.
      unfold G_pqrs. rewrite (Vs b j a i), (Vs b i a j) by auto. reflexivity.
    Qed.
    (* the code evaluates the sign with bra and ket exchanged *)
    Lemma sign_ex2 w : n <= w ->
      doubles_sign w (str W s D) (flip4 (str W s D) (i, a, j, b))
        (N.lxor (flip4 (str W s D) (i, a, j, b)) (str W s D)) = Ok (sg2 (str W s D) a b j i).
    Proof.
      intros Hw. assert (Ws : wf n (str W s D)) by (apply (str_wf W h), G).
      set (S0 := str W s D) in *. set (S1 := flip4 S0 (i, a, j, b)).
      assert (Bits : forall k, tb S1 k = xorb (xorb (xorb (xorb (tb S0 k) (k =? i)) (k =? a)) (k =? j)) (k =? b)).
      { intros k. unfold S1, flip4. rewrite !tb_flip. reflexivity. }
      assert (Nia : i <> a) by congruence. assert (Nib : i <> b) by congruence.
      assert (Nja : j <> a) by congruence. assert (Njb : j <> b) by congruence.
      assert (B1 : tb S1 i = false /\ tb S1 j = false /\ tb S1 a = true /\ tb S1 b = true).
      { rewrite !Bits, Ti, Tj, Ta, Tb, !Nat.eqb_refl.
        repeat match goal with |- context [?x =? ?y] => destruct (Nat.eqb_spec x y); try lia end. auto. }
      destruct B1 as (B1 & B2 & B3 & B4).
      assert (E : S0 = flip4 S1 (a, i, b, j)).
      { apply tb_ext. intros k. unfold flip4. rewrite !tb_flip, Bits.
        destruct (tb S0 k), (k =? i), (k =? a), (k =? j), (k =? b); reflexivity. }
      assert (W1 : wf w S1).
      { intros k Hk. rewrite Bits, (Ws k) by lia.
        repeat match goal with |- context [?x =? ?y] => destruct (Nat.eqb_spec x y); try lia end. auto. }
      unfold doubles_sign.
      rewrite (N.lxor_comm S1 S0). rewrite E at 1 2. rewrite double_ok; auto; try lia. cbn [bind]. f_equal.
      apply sgn_inj.
      rewrite <- (braket2_conn S0 S1 i j b a).
      2:{ repeat (split; [auto; try congruence; try lia|]). intros k. rewrite Bits.
          destruct (tb S0 k), (k =? i), (k =? a), (k =? j), (k =? b); reflexivity. }
      rewrite <- (braket2_conn S1 S0 a b j i).
      2:{ repeat (split; [auto; try congruence; try lia|]). intros k. rewrite Bits.
          destruct (tb S0 k), (k =? i), (k =? a), (k =? j), (k =? b); reflexivity. }
      rewrite braket_adj. cbn [map adj rev app]. reflexivity.
    Qed.
    Lemma diag_ex2 : (do ei <- at_ ens i; do ej <- at_ ens j; do ea <- at_ ens a; do eb <- at_ ens b;
      fast_diag_ss_double_en h ei ej ea eb i j a b (Hm D D)) = Ok (Hm t t).
    Proof.
      destruct (Hens i Hi) as (ei & Ai & Ei), (Hens a Ha) as (ea & Aa & Ea).
      destruct (Hens j Hj) as (ej & Aj & Ej), (Hens b Hb) as (eb & Ab & Eb).
      assert (i <> j) by lia. assert (a <> b) by lia.
      pose proof (c16_ss W h D s i j a b HW Hn Vs G Hi Hj Ha Hb H H0 Ti Tj Ta Tb) as M. cbn zeta in M.
      unfold fast_diag_ss_double in M. rewrite Ei, Ej, Ea, Eb in M. cbn [bind] in M.
      rewrite Ai, Aa, Aj, Ab. cbn [bind]. rewrite ex2_moved. exact M.
    Qed.
  End SAME.

  Definition exo D i a j b := ex1 (ex1 D false i a) true j b.
  Section OPP.
    Variables (D : N) (i a j b : nat) (ens1 ens2 : list Qc).
    Hypothesis G : in_space W n D.
    Hypothesis (Hi : i < n) (Ha : a < n) (Hj : j < n) (Hb : b < n).
    Hypothesis (Ti : tb (str W false D) i = true) (Ta : tb (str W false D) a = false).
    Hypothesis (Tj : tb (str W true D) j = true) (Tb : tb (str W true D) b = false).
    Hypothesis Hens1 : forall i, i < n -> exists e, at_ ens1 i = Ok e /\
      single_orbital_en h i (occ D false) (occ D true) = Ok e.
    Hypothesis Hens2 : forall i, i < n -> exists e, at_ ens2 i = Ok e /\
      single_orbital_en h i (occ D true) (occ D false) = Ok e.
    Notation t := (exo D i a j b).

    Lemma exo_mid : tb (str W true (ex1 D false i a)) j = true /\ tb (str W true (ex1 D false i a)) b = false.
    Proof. destruct (ex1_str D false i a Hi Ha) as [_ E]. cbn [negb] in E. rewrite E. auto. Qed.
    Lemma exo_moved : t = moved W (moved W D false i a) true j b.
    Proof.
      destruct exo_mid as [A B]. unfold exo. rewrite (ex1_moved (ex1 D false i a) true j b) by auto.
      rewrite (ex1_moved D false i a) by auto. reflexivity.
    Qed.
    Lemma exo_space : in_space W n t.
    Proof. destruct exo_mid. apply ex1_space; auto. apply ex1_space; auto. Qed.
    Lemma exo_str : str W false t = flip2 (str W false D) (i, a) /\ str W true t = flip2 (str W true D) (j, b).
    Proof.
      unfold exo. destruct (ex1_str (ex1 D false i a) true j b Hj Hb) as [A B].
      destruct (ex1_str D false i a Hi Ha) as [E F]. cbn [negb] in *. rewrite A, B, E, F. auto.
    Qed.
    Lemma ham_exo : Hm t D = (sgn (sg1 (str W false D) a i) * sgn (sg1 (str W true D) b j) * V_pqrs h a i b j)%Qc.
    Proof.
      destruct exo_str as [Es En]. pose proof exo_space as Gt. cbn [str] in *.
      pose proof (me_double_mixed W h Hn Vs t D Gt G i a j b Hi Ha Hj Hb Ti Ta Tj Tb Es En) as M.
      destruct G as [Wa Wb].
      unfold matrix_element_22 in M. rewrite Es, En in M.
      rewrite single_ok in M; auto; try lia. 2:{ eapply wf_le; [|exact Wa]. lia. }
      rewrite single_ok in M; auto; try lia. 2:{ eapply wf_le; [|exact Wb]. lia. }
      cbn [bind] in M. rewrite V_at_ok in M by auto. cbn [bind] in M. apply Ok_inj in M. rewrite <- M. clear M. reflexivity.
    Qed.
    Lemma diag_exo : (do ei <- at_ ens1 i; do ej <- at_ ens2 j; do ea <- at_ ens1 a; do eb <- at_ ens2 b;
      fast_diag_os_double_en h ei ej ea eb i j a b (Hm D D)) = Ok (Hm t t).
    Proof.
      destruct (Hens1 i Hi) as (ei & Ai & Ei), (Hens1 a Ha) as (ea & Aa & Ea).
      destruct (Hens2 j Hj) as (ej & Aj & Ej), (Hens2 b Hb) as (eb & Ab & Eb).
      pose proof (c16_os W h D false i j a b HW Hn Vs G Hi Hj Ha Hb Ti Tj Ta Tb) as M. cbn zeta in M.
      cbn [negb] in M.
      unfold fast_diag_os_double in M. rewrite Ei, Ej, Ea, Eb in M. cbn [bind] in M.
      rewrite Ai, Aa, Aj, Ab. cbn [bind]. rewrite exo_moved. exact M.
    Qed.
  End OPP.
End FACTS.

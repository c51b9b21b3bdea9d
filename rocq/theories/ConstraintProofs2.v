(** Proofs about mask_constraints.hpp: double excitations under a constraint. *)
From Coq Require Import Sorting.Permutation Sorting.Sorted.
From Verif Require Import Base Nondet Bits BitsProofs SD Spec SDProofs SDProofs2 SDProofs3 Ham Asci Constraint ConstraintSpec ConstraintProofs.
Local Open Scope nat_scope.

Definition prs (l : list nat) : list (nat * nat) := flat_map (fun ir => map (pair (fst ir)) (snd ir)) (tails l).
Lemma prs_In l i j : StronglySorted lt l -> In (i, j) (prs l) <-> In i l /\ In j l /\ i < j.
Proof.
  intros HS. rewrite <- sorted_pairs_In by auto. unfold prs. rewrite in_flat_map. split.
  - intros ((i' & r) & H1 & H2). cbn in H2. apply in_map_iff in H2. destruct H2 as (j' & [= -> ->] & H2). eauto.
  - intros (r & H1 & H2). exists (i, r). split; auto. cbn. apply in_map, H2.
Qed.
Lemma prs_NoDup l : StronglySorted lt l -> NoDup (prs l).
Proof.
  intros HS. induction l as [|x l IH]; [constructor|]. inversion HS as [|? ? H1 H2]; subst. unfold prs. cbn [tails flat_map fst snd].
  change (NoDup (map (pair x) l ++ prs l)). apply NoDup_app.
  - apply NoDup_map_inj; [intros; congruence|]. apply sorted_NoDup; auto.
  - apply IH; auto.
  - intros (i, j) A B. apply in_map_iff in A. destruct A as (j' & [= <- <-] & A). apply prs_In in B; auto.
    destruct B as (B & _). rewrite Forall_forall in H2. specialize (H2 _ B). lia.
Qed.
Lemma prs_length l : length (prs l) = length l * (length l - 1) / 2.
Proof.
  assert (E : 2 * length (prs l) = length l * (length l - 1)).
  { induction l as [|x l IH]; auto. unfold prs. cbn [tails flat_map fst snd]. rewrite app_length, map_length.
    change (2 * (length l + length (prs l)) = S (length l) * (S (length l) - 1)). rewrite Nat.mul_add_distr_l, IH.
    cbn [Nat.sub]. destruct (length l); cbn; lia. }
  rewrite <- E, Nat.mul_comm, Nat.div_mul; auto.
Qed.
Lemma generate_pairs_ok W l : (forall k, In k l -> k < W) -> generate_pairs W l = Ok (map (flip2 0) (prs l)).
Proof.
  intros H. unfold generate_pairs. fold (prs l). apply mapM_ok. intros (i, j) Hij. rewrite excite_ok; auto.
  cbn [fst snd]. intros k Hk. apply H. unfold prs in Hij. apply in_flat_map in Hij. destruct Hij as ((i' & r) & H1 & H2).
  cbn in H2. apply in_map_iff in H2. destruct H2 as (j' & [= -> ->] & H2).
  assert (IT : forall (l : list nat) i r, In (i, r) (tails l) -> In i l /\ incl r l).
  { clear. induction l as [|x l IH]; cbn; [tauto|]. intros i r [[= <- <-]|H].
    - split; [auto|]. intros y Hy. right. exact Hy.
    - apply IH in H. destruct H as [H1 H2]. split; [auto|]. intros y Hy. right. apply H2, Hy. }
  apply IT in H1. destruct H1 as [A1 A2]. destruct Hk as [<-|[<-|[]]]; auto.
Qed.

(* pairs of elements of F and L that contain all of F *)
Definition sel_code (W : nat) (F L : N) : res (list N) :=
  if bs_count F =? 1 then do idx <- bits_to_indices W L; mapM (bs_flip W F) idx
  else do idx <- bits_to_indices W (if bs_count F =? 2 then F else L); generate_pairs W idx.
Definition sel_count (F L : N) : nat :=
  if bs_count F =? 1 then bs_count L
  else let x := if bs_count F =? 2 then F else L in bs_count x * (bs_count x - 1) / 2.
Definition sel_pairs (W : nat) (F L : N) : list (nat * nat) :=
  if bs_count F =? 1 then map (fun k => let f := hd 0 (positions W F) in (Nat.min f k, Nat.max f k)) (positions W L)
  else prs (positions W (if bs_count F =? 2 then F else L)).

Section SEL.
  Variables (W : nat) (F L : N).
  Hypotheses (WF : wf W F) (WL : wf W L) (Dj : forall k, tb F k = true -> tb L k = false) (F2 : bs_count F <= 2).
  Lemma F1_pos f : (forall k, tb F k = (k =? f)) -> positions W F = [f].
  Proof.
    intros E. assert (E1 : bs_count F = 1) by (apply count_1; eauto). rewrite (count_positions W) in E1 by auto.
    destruct (positions W F) as [|x [|? ?]] eqn:EP; try discriminate. f_equal.
    assert (H : In x (positions W F)) by (rewrite EP; left; auto). apply positions_In' in H; auto. rewrite E in H.
    apply Nat.eqb_eq in H. exact H.
  Qed.
  Lemma sel_code_ok : sel_code W F L = Ok (map (flip2 0) (sel_pairs W F L)).
  Proof.
    unfold sel_code, sel_pairs. destruct (Nat.eqb_spec (bs_count F) 1) as [E|E].
    - apply count_1 in E. destruct E as [f E]. rewrite (F1_pos f E). cbn [hd]. rewrite bits_to_indices_ok by auto. cbn [bind].
      rewrite map_map. apply mapM_ok. intros k Hk. apply positions_In in Hk. destruct Hk as [Lk Hk]. unfold bs_flip.
      destruct (Nat.ltb_spec k W); [|lia]. f_equal. apply tb_ext. intros z. unfold flip2. cbn [fst snd]. rewrite !tb_flip, tb_0, E.
      destruct (Nat.le_gt_cases f k).
      + rewrite Nat.min_l, Nat.max_r by auto. destruct (z =? f), (z =? k); reflexivity.
      + rewrite Nat.min_r, Nat.max_l by lia. destruct (z =? f), (z =? k); reflexivity.
    - rewrite bits_to_indices_ok by (destruct (_ =? 2); auto). cbn [bind]. apply generate_pairs_ok. intros k Hk.
      apply positions_In in Hk. apply Hk.
  Qed.
  Lemma sel_length : length (sel_pairs W F L) = sel_count F L.
  Proof.
    unfold sel_pairs, sel_count. destruct (bs_count F =? 1).
    - rewrite map_length, (count_positions W); auto.
    - rewrite prs_length. cbn zeta. rewrite <- count_positions; auto. destruct (_ =? 2); auto.
  Qed.
  Lemma sel_NoDup : NoDup (sel_pairs W F L).
  Proof.
    clear WF WL Dj F2. unfold sel_pairs. destruct (bs_count F =? 1).
    - cbn zeta. apply NoDup_map_inj; [|apply positions_NoDup]. intros x y _ _ [= H1 H2]. lia.
    - apply prs_NoDup, positions_sorted.
  Qed.
  Lemma sel_In i j : In (i, j) (sel_pairs W F L) <->
    i < j /\ (tb F i || tb L i = true) /\ (tb F j || tb L j = true) /\ (forall k, tb F k = true -> k = i \/ k = j).
  Proof.
    unfold sel_pairs. destruct (Nat.eqb_spec (bs_count F) 1) as [E|E].
    - apply count_1 in E. destruct E as [f E]. rewrite (F1_pos f E). cbn [hd]. cbn zeta. rewrite in_map_iff.
      assert (Lf : tb L f = false) by (apply Dj; rewrite E; apply Nat.eqb_refl). split.
      + intros (k & [= <- <-] & Hk). apply positions_In in Hk. destruct Hk as [_ Hk].
        assert (f <> k) by congruence. rewrite !E. split; [lia|].
        split; [destruct (Nat.eqb_spec (Nat.min f k) f); auto; replace (Nat.min f k) with k by lia; auto|].
        split; [destruct (Nat.eqb_spec (Nat.max f k) f); auto; replace (Nat.max f k) with k by lia; auto|].
        intros z Hz. rewrite E in Hz. apply Nat.eqb_eq in Hz. lia.
      + intros (Lij & Hi & Hj & HF). specialize (HF f ltac:(rewrite E; apply Nat.eqb_refl)). rewrite E in Hi, Hj.
        destruct HF as [-> | ->].
        * exists j. rewrite Nat.min_l, Nat.max_r by lia. split; auto. apply positions_In'; auto.
          destruct (Nat.eqb_spec j i); [lia|]. exact Hj.
        * exists i. rewrite Nat.min_r, Nat.max_l by lia. split; auto. apply positions_In'; auto.
          destruct (Nat.eqb_spec i j); [lia|]. exact Hi.
    - rewrite prs_In by apply positions_sorted. rewrite !positions_In' by (destruct (_ =? 2); auto).
      destruct (Nat.eqb_spec (bs_count F) 2) as [E2|E2].
      + apply count_2 in E2. destruct E2 as (x & y & Lxy & E2). split.
        * intros (Hi & Hj & Lij). rewrite Hi, Hj. split; auto. split; auto. split; auto. rewrite E2 in Hi, Hj.
          intros k Hk. rewrite E2 in Hk. apply orb_true_iff in Hi, Hj, Hk. rewrite !Nat.eqb_eq in *. lia.
        * intros (Lij & Hi & Hj & HF). pose proof (HF x ltac:(rewrite E2, Nat.eqb_refl; auto)) as Hx.
          pose proof (HF y ltac:(rewrite E2, Nat.eqb_refl; auto using orb_true_r)) as Hy.
          assert (i = x /\ j = y) as [-> ->] by lia. rewrite !E2, !Nat.eqb_refl. cbn. rewrite orb_true_r. auto.
      + assert (E0 : bs_count F = 0) by lia. rewrite count_0 in E0. rewrite !E0. cbn [orb]. split.
        * intros (Hi & Hj & Lij). repeat split; auto. intros k Hk. rewrite E0 in Hk. discriminate.
        * intros (Lij & Hi & Hj & _). auto.
  Qed.
End SEL.

Section EX2.
  Variables (W norb : nat) (c : constraint) (det : N).
  Hypothesis HW : norb <= W.
  Hypothesis H64 : (N.of_nat W < 2 ^ 64)%N.
  Hypothesis Hc : valid_con norb c.
  Hypothesis Hd : wf norb det.
  Notation C := (con_C c).
  Notation B := (con_B c).
  Notation m := (con_min c).
  Notation M := (miss c det).
  Notation X := (extra c det).
  Notation L := (lows c det).
  Notation V := (vlow c det).

  Lemma masks_wf : wf W M /\ wf W X /\ wf W L /\ wf W V.
  Proof.
    pose proof (C_wf W norb c HW Hc) as WC. pose proof (B_wf W norb c HW H64 Hc) as WB. pose proof (d_wf W norb det HW Hd) as Wd.
    repeat split; intros k Hk; unfold miss, extra, lows, vlow; rewrite ?tb_ldiff, ?tb_and, ?tb_ldiff.
    - rewrite WC; auto.
    - rewrite Wd; auto.
    - rewrite Wd; auto.
    - rewrite WB; auto.
  Qed.
  Lemma MV_disj k : tb M k = true -> tb V k = false.
  Proof.
    intros H. pose proof (miss_high norb c det Hc k H). destruct (tb V k) eqn:E; auto.
    apply (vlow_low W norb c det HW H64 Hc) in E. lia.
  Qed.
  Lemma XL_disj k : tb X k = true -> tb L k = false.
  Proof.
    intros H. pose proof (extra_high W norb c det HW H64 Hc k H). destruct (tb L k) eqn:E; auto.
    apply (lows_low W norb c det HW H64 Hc) in E. lia.
  Qed.

  Lemma miss_all : N.land det C = 0%N -> 3 <= bs_count M.
  Proof.
    intros E. pose proof (miss_count c det) as MC. pose proof (C_count W norb c HW H64 Hc). rewrite E in MC.
    change (bs_count 0) with 0 in MC. lia.
  Qed.

  Lemma land_M_C : N.land M C = M.
  Proof. apply tb_ext. intros k. unfold miss. rewrite tb_and, tb_ldiff. destruct (tb C k), (tb det k); auto. Qed.
  Lemma ldiff_C : N.land (N.ldiff det C) C = 0%N.
  Proof. apply tb_ext. intros k. rewrite tb_and, tb_ldiff, tb_0. destruct (tb C k), (tb det k); auto. Qed.

  Lemma con_double_eq : con_double_ex W det C (mask W norb) B =
    if 3 <=? bs_count M then Ok ([], [])
    else do V0 <- sel_code W M V;
         if 2 <? bs_count X then Ok ([], V0) else do O0 <- sel_code W X L; Ok (O0, V0).
  Proof.
    unfold con_double_ex, sel_code.
    destruct (N.eqb_spec (N.land det C) 0) as [E|E].
    { pose proof (miss_all E). destruct (Nat.leb_spec 3 (bs_count M)); auto. lia. }
    rewrite o_C, (v_eq W norb c det HW H64 Hc Hd).
    destruct (Nat.leb_spec 3 (bs_count M)) as [M3|M3]; auto.
    assert (OX : bs_count X =? 1 = true \/ (bs_count X =? 1 = false /\ bs_count X =? 2 = true) \/
       bs_count X = 0 \/ (2 <? bs_count X) = true).
    { destruct (Nat.eqb_spec (bs_count X) 1), (Nat.eqb_spec (bs_count X) 2), (Nat.ltb_spec 2 (bs_count X)); auto. lia. }
    assert (TAIL : forall V0 : list N,
      (let o_nb := N.land (N.ldiff det C) (bs_not W B) in
       if 2 <? bs_count o_nb then Ok ([], V0)
       else do Om' <- (if bs_count o_nb =? 1
                  then do occ <- bits_to_indices W (N.land (N.ldiff det C) B); mapM (bs_flip W o_nb) occ
                  else let o := if bs_count o_nb =? 2 then o_nb else N.ldiff det C in
                       do occ <- bits_to_indices W o; generate_pairs W occ);
        Ok (Om', V0)) =
      (if 2 <? bs_count X then Ok ([], V0)
       else do O0 <- (if bs_count X =? 1 then do idx <- bits_to_indices W L; mapM (bs_flip W X) idx
         else do idx <- bits_to_indices W (if bs_count X =? 2 then X else L); generate_pairs W idx); Ok (O0, V0))).
    { intros V0. cbn zeta. rewrite (o_nb W norb c det HW H64 Hc Hd), (o_b W norb c det HW H64 Hc).
      destruct (Nat.ltb_spec 2 (bs_count X)); auto. destruct (Nat.eqb_spec (bs_count X) 1); auto.
      destruct (Nat.eqb_spec (bs_count X) 2); auto. rewrite (o_no_extra W norb c det HW H64 Hc) by lia. reflexivity. }
    destruct (Nat.eqb_spec (bs_count M) 2) as [M2|M2].
    - rewrite M2. cbn [Nat.eqb]. rewrite o_miss, ldiff_C. change (bs_count 0 =? 1) with false. cbn iota.
      destruct (bits_to_indices W M) as [vi|]; [|reflexivity]. cbn [bind].
      destruct (generate_pairs W vi) as [V0|]; [|reflexivity]. cbn [bind]. apply TAIL.
    - destruct (Nat.eqb_spec (bs_count M) 1) as [M1|M1].
      + rewrite o_C, M1. cbn [Nat.eqb]. destruct (bits_to_indices W V) as [vi|]; [|reflexivity]. cbn [bind].
        rewrite o_miss. destruct (mapM (bs_flip W M) vi) as [V0|]; [|reflexivity]. cbn [bind]. apply TAIL.
      + rewrite o_C. assert (M0 : bs_count M = 0) by lia. rewrite M0. cbn [Nat.eqb].
        destruct (bits_to_indices W V) as [vi|]; [|reflexivity]. cbn [bind].
        destruct (generate_pairs W vi) as [V0|]; [|reflexivity]. cbn [bind]. rewrite o_no_miss by auto. apply TAIL.
  Qed.

  Definition dO : list (nat * nat) := if (3 <=? bs_count M) || (2 <? bs_count X) then [] else sel_pairs W X L.
  Definition dV : list (nat * nat) := if 3 <=? bs_count M then [] else sel_pairs W M V.
  Lemma con_double_ok : con_double_ex W det C (mask W norb) B = Ok (map (flip2 0) dO, map (flip2 0) dV).
  Proof.
    rewrite con_double_eq. unfold dO, dV. destruct masks_wf as (W1 & W2 & W3 & W4).
    destruct (Nat.leb_spec 3 (bs_count M)); auto. cbn [orb].
    rewrite sel_code_ok; auto using MV_disj; try lia. cbn [bind].
    destruct (Nat.ltb_spec 2 (bs_count X)); auto. rewrite sel_code_ok; auto using XL_disj.
  Qed.
  Lemma dO_NoDup : NoDup dO.
  Proof. unfold dO. destruct (_ || _); [constructor|]. apply sel_NoDup. Qed.
  Lemma dV_NoDup : NoDup dV.
  Proof. unfold dV. destruct (_ <=? _); [constructor|]. apply sel_NoDup. Qed.

  Lemma double_count : count_constraint_doubles W det C (mask W norb) B = length dO * length dV.
  Proof.
    unfold count_constraint_doubles, dO, dV. destruct masks_wf as (W1 & W2 & W3 & W4).
    destruct (N.eqb_spec (N.land det C) 0) as [E|E].
    { pose proof (miss_all E). destruct (Nat.leb_spec 3 (bs_count M)); auto. lia. }
    rewrite o_C, (v_eq W norb c det HW H64 Hc Hd).
    destruct (Nat.leb_spec 3 (bs_count M)) as [M3|M3]; auto. cbn [orb].
    rewrite sel_length by auto.
    assert (TAIL : forall nv : nat,
      (let o_nb := N.land (N.ldiff det C) (bs_not W B) in
       if 2 <? bs_count o_nb then 0
       else (if bs_count o_nb =? 1 then bs_count (N.land (N.ldiff det C) B)
          else let o := if bs_count o_nb =? 2 then o_nb else N.ldiff det C in
               bs_count o * (bs_count o - 1) / 2) * nv) =
      length (if 2 <? bs_count X then [] else sel_pairs W X L) * nv).
    { intros nv. cbn zeta. rewrite (o_nb W norb c det HW H64 Hc Hd), (o_b W norb c det HW H64 Hc).
      destruct (Nat.ltb_spec 2 (bs_count X)); auto. rewrite sel_length by auto. unfold sel_count.
      destruct (Nat.eqb_spec (bs_count X) 1); auto.
      destruct (Nat.eqb_spec (bs_count X) 2); auto. rewrite (o_no_extra W norb c det HW H64 Hc) by lia. reflexivity. }
    unfold sel_count.
    destruct (Nat.eqb_spec (bs_count M) 2) as [M2|M2].
    - rewrite M2. cbn [Nat.eqb]. rewrite o_miss, ldiff_C. change (bs_count 0 =? 1) with false. cbn iota. apply TAIL.
    - destruct (Nat.eqb_spec (bs_count M) 1) as [M1|M1].
      + rewrite o_C, M1. cbn [Nat.eqb]. rewrite o_miss. apply TAIL.
      + rewrite o_C. assert (M0 : bs_count M = 0) by lia. rewrite M0. cbn [Nat.eqb]. rewrite o_no_miss by auto. apply TAIL.
  Qed.

  Lemma con_double_In i j a b : In (i, j) dO /\ In (a, b) dV <->
    (tb det i = true /\ tb det j = true /\ i < j) /\ (tb det a = false /\ tb det b = false /\ a < b) /\
    a < norb /\ b < norb /\ meets c (flip4 det (i, a, j, b)).
  Proof.
    destruct masks_wf as (W1 & W2 & W3 & W4).
    assert (CH : tb det i = true -> tb det j = true -> tb det a = false -> tb det b = false -> i < j -> a < b ->
       meets c (flip4 det (i, a, j, b)) <->
       ((forall k, tb M k = true -> k = a \/ k = b) /\ (forall k, tb X k = true -> k = i \/ k = j) /\
        (tb X i || tb L i = true /\ tb X j || tb L j = true) /\
        ((a < m \/ tb M a = true) /\ (b < m \/ tb M b = true)))).
    { intros Ti Tj Ta Tb Lij Lab.
      rewrite (meets_char W norb c det HW H64 Hc (flip4 det (i, a, j, b)) (fun k => (k =? i) || (k =? j)) (fun k => (k =? a) || (k =? b))).
      - split.
        + intros (H1 & H2 & H3 & H4).
          split; [intros k Hk; apply H1 in Hk; apply orb_true_iff in Hk; rewrite !Nat.eqb_eq in Hk; auto|].
          split; [intros k Hk; apply H2 in Hk; apply orb_true_iff in Hk; rewrite !Nat.eqb_eq in Hk; auto|].
          split; split; try apply H3; try apply H4; rewrite ?Nat.eqb_refl, ?orb_true_r; reflexivity.
        + intros (H1 & H2 & [H3 H3'] & H4 & H4').
          split; [intros k Hk; apply orb_true_iff; rewrite !Nat.eqb_eq; auto|].
          split; [intros k Hk; apply orb_true_iff; rewrite !Nat.eqb_eq; auto|].
          split; intros k Hk; apply orb_true_iff in Hk; rewrite !Nat.eqb_eq in Hk; destruct Hk as [-> | ->]; auto.
      - intros k. unfold flip4. rewrite !tb_flip.
        destruct (Nat.eqb_spec k i), (Nat.eqb_spec k j), (Nat.eqb_spec k a), (Nat.eqb_spec k b), (tb det k); auto; try lia; congruence.
      - intros k Hk. apply orb_true_iff in Hk. rewrite !Nat.eqb_eq in Hk. destruct Hk as [-> | ->]; auto.
      - intros k Hk. apply orb_true_iff in Hk. rewrite !Nat.eqb_eq in Hk. destruct Hk as [-> | ->]; auto. }
    assert (OX : forall k, tb X k || tb L k = true -> tb det k = true).
    { intros k. unfold extra, lows. rewrite !tb_ldiff, tb_and. destruct (tb det k); auto. }
    assert (VM : forall k, tb M k || tb V k = true <-> tb det k = false /\ k < norb /\ (k < m \/ tb M k = true)).
    { intros k. pose proof (m_norb norb c Hc). split.
      - intros H1. apply orb_true_iff in H1. destruct H1 as [H1|H1].
        + pose proof H1 as H2. unfold miss in H2. rewrite tb_ldiff in H2. apply andb_prop in H2. destruct H2 as [A1 A2].
          split; [destruct (tb det k); auto; discriminate|]. split; auto. destruct (Nat.lt_ge_cases k norb); auto.
          rewrite (proj1 Hc) in A1 by auto. discriminate.
        + pose proof (vlow_low W norb c det HW H64 Hc k H1). unfold vlow in H1. rewrite tb_ldiff in H1. apply andb_prop in H1.
          destruct H1 as [A1 A2]. split; [destruct (tb det k); auto; discriminate|]. split; [lia|auto].
      - intros (H1 & H2 & [H3|H3]).
        + unfold vlow. rewrite tb_ldiff, (tB W norb c HW H64 Hc), H1. destruct (Nat.ltb_spec k m); [|lia]. apply orb_true_r.
        + rewrite H3. reflexivity. }
    unfold dO, dV. split.
    - destruct (Nat.leb_spec 3 (bs_count M)) as [M3|M3]; cbn [orb]; [intros [[] _]|].
      destruct (Nat.ltb_spec 2 (bs_count X)) as [X3|X3]; [intros [[] _]|].
      rewrite (sel_In W X L) by (auto using XL_disj). rewrite (sel_In W M V) by (auto using MV_disj; lia).
      intros [(H1 & H2 & H3 & H4) (G1 & G2 & G3 & G4)]. apply VM in G2, G3. destruct G2 as (A1 & A2 & A3), G3 as (B1 & B2 & B3).
      pose proof (OX _ H2). pose proof (OX _ H3). repeat (split; [solve [auto]|]). apply CH; auto.
    - intros ((Ti & Tj & Lij) & (Ta & Tb & Lab) & La & Lb & H). apply CH in H; auto. destruct H as (H1 & H2 & [H3 H3'] & H4 & H4').
      assert (bs_count M <= 2) by (apply (count_incl M [a; b]); intros k Hk; destruct (H1 k Hk) as [-> | ->]; cbn; auto).
      assert (bs_count X <= 2) by (apply (count_incl X [i; j]); intros k Hk; destruct (H2 k Hk) as [-> | ->]; cbn; auto).
      destruct (Nat.leb_spec 3 (bs_count M)); [lia|]. destruct (Nat.ltb_spec 2 (bs_count X)); [lia|]. cbn [orb].
      rewrite (sel_In W X L) by (auto using XL_disj). rewrite (sel_In W M V) by (auto using MV_disj; lia).
      rewrite !VM. auto 10.
  Qed.
End EX2.

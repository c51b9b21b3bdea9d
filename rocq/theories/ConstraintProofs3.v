(** Proofs about mask_constraints.hpp: generators, counts, construction of
    constraints. *)
From Coq Require Import Sorting.Permutation Sorting.Sorted.
From Verif Require Import Base Nondet Bits BitsProofs SD Spec SDProofs SDProofs2 SDProofs3 Ham Asci AsciContrib AsciContrib2
  Constraint ConstraintSpec ConstraintProofs ConstraintProofs2.
Local Open Scope nat_scope.

Section GEN.
  Variables (W norb : nat) (c : constraint) (det : N).
  Hypothesis HW : norb <= W.
  Hypothesis H64 : (N.of_nat W < 2 ^ 64)%N.
  Hypothesis Hc : valid_con norb c.
  Hypothesis Hd : wf norb det.
  Notation C := (con_C c).
  Notation B := (con_B c).
  Notation Om := (mask W norb).
  Notation co := (con_o W norb c det).
  Notation cv := (con_v W norb c det).

  Definition gen1 : list N := map (flip2 det) (list_prod co cv).
  Definition gen2 : list N :=
    map (fun q => let '((i, j), (a, b)) := q in flip4 det (i, a, j, b)) (list_prod (dO W c det) (dV W c det)).

  Lemma co_lt k : In k co -> k < W. Proof. intros H. apply positions_In in H. apply H. Qed.
  Lemma cv_lt k : In k cv -> k < W. Proof. intros H. apply positions_In in H. apply H. Qed.
  Lemma single_counts : count_constraint_singles W det C Om B = length gen1.
  Proof.
    unfold count_constraint_singles, gen1, con_o, con_v. destruct (single_masks_wf W norb c det HW H64 Hc Hd) as [W1 W2].
    destruct (con_single_ex W det C Om B) as [o v]. cbn [fst snd] in *.
    rewrite map_length, prod_length, <- !count_positions; auto.
  Qed.
  Lemma gen1_ok old : generate_constraint_singles W det C Om B old = Ok (if length gen1 =? 0 then old else gen1).
  Proof.
    rewrite <- single_counts. unfold generate_constraint_singles, count_constraint_singles, gen1, con_o, con_v.
    pose proof co_lt as CO. pose proof cv_lt as CV. unfold con_o, con_v in CO, CV.
    destruct (single_masks_wf W norb c det HW H64 Hc Hd) as [W1 W2].
    destruct (con_single_ex W det C Om B) as [o v]. cbn [fst snd] in *.
    destruct (Nat.eqb_spec (bs_count o) 0) as [->|No]; [reflexivity|].
    destruct (Nat.eqb_spec (bs_count v) 0) as [->|Nv]; [rewrite Nat.mul_0_r; reflexivity|].
    destruct (Nat.eqb_spec (bs_count o * bs_count v) 0) as [X|_]; [apply Nat.eq_mul_0 in X; lia|]. cbn [orb].
    rewrite !bits_to_indices_ok by auto. cbn [bind]. apply mapM_ok. intros [i a] H. apply in_prod_iff in H. destruct H.
    cbn [fst snd]. rewrite excite_ok; [reflexivity|]. intros k [<-|[<-|[]]]; auto.
  Qed.
  Lemma gen1_In t : In t gen1 <-> wf norb t /\ moves 1 det t /\ meets c t.
  Proof.
    unfold gen1. rewrite in_map_iff. split.
    - intros ([i a] & <- & H). apply in_prod_iff in H. apply con_single_In in H; auto. destruct H as (Ti & Ta & La & H).
      assert (Li : i < norb) by (destruct (Nat.lt_ge_cases i norb); auto; rewrite Hd in Ti by auto; discriminate).
      split; [apply wf_flip2; auto|]. split; auto. apply moves_1. eauto.
    - intros (Wt & M & H). apply moves_1 in M. destruct M as (i & a & Ti & Ta & ->). exists (i, a). split; auto.
      apply in_prod_iff. apply con_single_In; auto. repeat split; auto.
      destruct (Nat.lt_ge_cases a norb) as [L|L]; auto. specialize (Wt a L). unfold flip2 in Wt. cbn [fst snd] in Wt.
      rewrite !tb_flip, Ta, Nat.eqb_refl in Wt. destruct (Nat.eqb_spec a i); [congruence|discriminate].
  Qed.
  Lemma gen1_NoDup : NoDup gen1.
  Proof.
    apply NoDup_map_inj; [|apply NoDup_prod; apply positions_NoDup].
    intros [i a] [i' a'] H H' E. apply in_prod_iff in H, H'. apply con_single_In in H; auto. apply con_single_In in H'; auto.
    apply flip2_inj in E; try tauto. destruct E. congruence.
  Qed.

  Lemma double_counts : count_constraint_doubles W det C Om B = length gen2.
  Proof. rewrite (double_count W norb) by auto. unfold gen2. rewrite map_length, prod_length. reflexivity. Qed.
  Lemma prod_flat {A A' D} (f : A -> A' -> D) l l' :
    flat_map (fun x => map (f x) l') l = map (fun q => f (fst q) (snd q)) (list_prod l l').
  Proof.
    induction l as [|x l IH]; auto. cbn [flat_map list_prod]. rewrite map_app, map_map, IH. reflexivity.
  Qed.
  Lemma flat_map_map' {A B' D} (f : B' -> list D) (g : A -> B') l : flat_map f (map g l) = flat_map (fun x => f (g x)) l.
  Proof. induction l as [|x l IH]; auto. cbn [map flat_map]. rewrite IH. reflexivity. Qed.
  Lemma mask_flip4 i j a b : In (i, j) (dO W c det) -> In (a, b) (dV W c det) ->
    N.lor (N.lxor det (flip2 0 (i, j))) (flip2 0 (a, b)) = flip4 det (i, a, j, b).
  Proof.
    intros H1 H2. destruct (proj1 (con_double_In W norb c det HW H64 Hc Hd i j a b) (conj H1 H2))
      as ((Ti & Tj & Lij) & (Ta & Tb & Lab) & _).
    apply tb_ext. intros k. unfold flip2, flip4. cbn [fst snd]. rewrite tb_or, tb_xor, !tb_flip, !tb_0. rewrite !xorb_false_l.
    destruct (Nat.eqb_spec k i), (Nat.eqb_spec k j), (Nat.eqb_spec k a), (Nat.eqb_spec k b), (tb det k) eqn:E;
      subst; auto; try lia; try congruence.
  Qed.
  Lemma gen2_ok : generate_constraint_doubles W det C Om B = Ok gen2.
  Proof.
    unfold generate_constraint_doubles. rewrite (con_double_ok W norb) by auto. cbn [bind fst snd]. f_equal.
    rewrite flat_map_map'. unfold gen2.
    rewrite (flat_map_ext _ (fun x => map (fun ab => N.lor (N.lxor det (flip2 0 x)) (flip2 0 ab)) (dV W c det)))
      by (intros; rewrite map_map; reflexivity).
    rewrite prod_flat. apply map_ext_in. intros [[i j] [a b]] H. apply in_prod_iff in H. cbn [fst snd]. apply mask_flip4; tauto.
  Qed.
  Lemma gen2_In t : In t gen2 <-> wf norb t /\ moves 2 det t /\ meets c t.
  Proof.
    unfold gen2. rewrite in_map_iff. split.
    - intros ([[i j] [a b]] & <- & H). apply in_prod_iff in H. apply (con_double_In W norb) in H; auto.
      destruct H as ((Ti & Tj & Lij) & (Ta & Tb & Lab) & La & Lb & H).
      split; [|split; auto; apply moves_2; exists i, a, j, b; auto 6].
      intros k Hk. unfold flip4. rewrite !tb_flip, (Hd k Hk).
      assert (Li : i < norb) by (destruct (Nat.lt_ge_cases i norb); auto; rewrite Hd in Ti by auto; discriminate).
      assert (Lj : j < norb) by (destruct (Nat.lt_ge_cases j norb); auto; rewrite Hd in Tj by auto; discriminate).
      destruct (Nat.eqb_spec k i), (Nat.eqb_spec k j), (Nat.eqb_spec k a), (Nat.eqb_spec k b); auto; lia.
    - intros (Wt & M & H). apply moves_2 in M. destruct M as (i & a & j & b & (Ti & Tj & Lij) & (Ta & Tb & Lab) & ->).
      exists ((i, j), (a, b)). split; auto.
      assert (V : forall k, k = a \/ k = b -> k < norb).
      { intros k Hk. destruct (Nat.lt_ge_cases k norb) as [L|L]; auto. specialize (Wt k L). unfold flip4 in Wt.
        rewrite !tb_flip, (Hd k L) in Wt.
        assert (k <> i) by (intros ->; rewrite Hd in Ti by auto; discriminate).
        assert (k <> j) by (intros ->; rewrite Hd in Tj by auto; discriminate).
        destruct (Nat.eqb_spec k i), (Nat.eqb_spec k j), (Nat.eqb_spec k a), (Nat.eqb_spec k b); try discriminate; lia. }
      apply in_prod_iff. apply (con_double_In W norb); auto 12.
  Qed.
  Lemma gen2_NoDup : NoDup gen2.
  Proof.
    apply NoDup_map_inj; [|apply NoDup_prod; [apply dO_NoDup|apply dV_NoDup]].
    intros [[i j] [a b]] [[i' j'] [a' b']] H H' E. apply in_prod_iff in H, H'. 
    apply (con_double_In W norb) in H; auto. apply (con_double_In W norb) in H'; auto.
    apply flip4_inj in E; try tauto. congruence.
  Qed.
End GEN.

(** ** construction *)
Lemma tb_pred_pow k i : tb (2 ^ N.of_nat k - 1) i = (i <? k).
Proof.
  replace (2 ^ N.of_nat k - 1)%N with (N.ones (N.of_nat k)) by (rewrite N.ones_equiv; lia).
  unfold tb. destruct (Nat.ltb_spec i k).
  - apply N.ones_spec_low. lia.
  - apply N.ones_spec_high. lia.
Qed.
Lemma low_mask W k : k < W -> k < 64 ->
  (do b <- bs_to_u64 (bs_shl W 1 k); Ok (bs_of_u64 W (b - 1))) = Ok (2 ^ N.of_nat k - 1)%N.
Proof.
  intros H1 H2.
  assert (E : bs_shl W 1 k = (2 ^ N.of_nat k)%N).
  { apply tb_ext. intros i. rewrite tb_bs_shl. unfold tb at 2. rewrite N.pow2_bits_eqb.
    destruct (Nat.ltb_spec i W), (Nat.leb_spec k i), (N.eqb_spec (N.of_nat k) (N.of_nat i)); cbn [andb]; auto; try lia.
    - replace (i - k) with 0 by lia. reflexivity.
    - destruct (i - k) as [|d] eqn:Ed; [lia|]. unfold tb. destruct (N.of_nat (S d)) eqn:E; [lia|reflexivity]. }
  rewrite E. unfold bs_to_u64.
  assert (L : (2 ^ N.of_nat k < 2 ^ 64)%N) by (apply N.pow_lt_mono_r; lia).
  destruct (N.ltb_spec (2 ^ N.of_nat k) (2 ^ 64)); [|lia]. cbn [bind]. f_equal.
  apply tb_ext. intros i. unfold bs_of_u64. rewrite tb_and, tb_pred_pow. unfold tb.
  destruct (Nat.ltb_spec i k); cbn [andb]; auto. apply N.ones_spec_low. lia.
Qed.

(* the constraint made of the orbitals of a list, lowest last *)
Definition con_of (l : list nat) (k : nat) : constraint := mk_con (fold_left flipb l 0%N) (2 ^ N.of_nat k - 1) k.
Lemma tb_fold_flip l : NoDup l -> forall x i, (forall k, In k l -> tb x k = false) ->
  tb (fold_left flipb l x) i = tb x i || existsb (Nat.eqb i) l.
Proof.
  induction 1 as [|a l Ha Nd IH]; intros x i Hx; cbn [fold_left existsb]; [rewrite orb_false_r; auto|].
  rewrite IH.
  - rewrite tb_flip. destruct (Nat.eqb_spec i a) as [->|Ne].
    + rewrite (Hx a) by (left; auto). reflexivity.
    + rewrite xorb_false_r. reflexivity.
  - intros k Hk. rewrite tb_flip, Hx by (right; auto). destruct (Nat.eqb_spec k a); [congruence|reflexivity].
Qed.
Lemma triplet_ok W i j k : k < j -> j < i -> i < W -> k < 64 -> make_triplet W i j k = Ok (con_of [i; j; k] k).
Proof.
  intros. unfold make_triplet. rewrite excite_ok by (cbn [In]; intros; lia). cbn [bind].
  pose proof (low_mask W k ltac:(lia) ltac:(lia)) as E. destruct (bs_to_u64 _); [|discriminate]. cbn [bind] in *.
  unfold con_of. apply Ok_inj in E. rewrite E. reflexivity.
Qed.
Lemma quad_ok W i j k l : l < k -> k < j -> j < i -> i < W -> l < 64 -> make_quad W i j k l = Ok (con_of [i; j; k; l] l).
Proof.
  intros. unfold make_quad. rewrite excite_ok by (cbn [In]; intros; lia). cbn [bind].
  pose proof (low_mask W l ltac:(lia) ltac:(lia)) as E. destruct (bs_to_u64 _); [|discriminate]. cbn [bind] in *.
  unfold con_of. apply Ok_inj in E. rewrite E. reflexivity.
Qed.
Lemma con_of_valid norb l k : NoDup (l ++ [k]) -> 2 <= length l -> (forall z, In z l -> k < z) ->
  (forall z, In z (l ++ [k]) -> z < norb) -> valid_con norb (con_of (l ++ [k]) k).
Proof.
  intros Nd Ll Lk Ln. assert (T : forall z, tb (fold_left flipb (l ++ [k]) 0%N) z = existsb (Nat.eqb z) (l ++ [k])).
  { intros z. rewrite tb_fold_flip; auto using tb_0. }
  assert (TI : forall z, tb (fold_left flipb (l ++ [k]) 0%N) z = true <-> In z (l ++ [k])).
  { intros z. rewrite T, existsb_exists. split.
    - intros (y & Hy & E). apply Nat.eqb_eq in E. congruence.
    - intros Hz. exists z. split; auto. apply Nat.eqb_refl. }
  unfold valid_con, con_of. cbn [con_C con_B con_min]. split; [|split; [|split; [|split]]].
  - intros z Hz. destruct (tb _ z) eqn:E; auto. apply TI, Ln in E. lia.
  - apply TI. apply in_or_app. right. left. auto.
  - intros z Hz. destruct (tb _ z) eqn:E; auto. apply TI, in_app_or in E. destruct E as [E|[->|[]]]; [apply Lk in E|]; lia.
  - intros z. rewrite tb_pred_pow. destruct (Nat.ltb_spec z k); split; auto; [discriminate|lia].
  - exists (length (l ++ [k])). split; [rewrite app_length; cbn; lia|]. exists (l ++ [k]). split; auto. split; auto.
    intros z. symmetry. apply TI.
Qed.

(** Generic Slater-Condon rules over spin orbitals (bit positions). *)
From Coq Require Import QArith Qcanon Sorting.Permutation.
From Verif Require Import Base Bits BitsProofs Sums FockSpec SDProofs.
Local Open Scope nat_scope.

Lemma clearbit_flip s p : tb s p = true -> N.clearbit s (N.of_nat p) = flipb s p.
Proof.
  intros H. apply tb_ext. intros i. rewrite tb_flip. unfold tb in *. rewrite N.clearbit_eqb.
  destruct (N.eqb_spec (N.of_nat p) (N.of_nat i)), (Nat.eqb_spec i p); try lia.
  - subst i. rewrite H. reflexivity.
  - cbn. destruct (N.testbit s (N.of_nat i)); reflexivity.
Qed.
Lemma setbit_flip s p : tb s p = false -> N.setbit s (N.of_nat p) = flipb s p.
Proof.
  intros H. apply tb_ext. intros i. rewrite tb_flip. unfold tb in *. rewrite N.setbit_eqb.
  destruct (N.eqb_spec (N.of_nat p) (N.of_nat i)), (Nat.eqb_spec i p); try lia.
  - subst i. rewrite H. reflexivity.
  - cbn. destruct (N.testbit s (N.of_nat i)); reflexivity.
Qed.

Lemma parity_below_S s p : parity_below s (S p) = xorb (parity_below s p) (tb s p).
Proof.
  unfold parity_below, positions. rewrite seq_S, filter_app, app_length. cbn [filter plus].
  destruct (tb s p); cbn [length].
  - rewrite Nat.odd_add. reflexivity.
  - rewrite Nat.add_0_r, xorb_false_r. reflexivity.
Qed.

Lemma parity_flip s q p : parity_below (flipb s q) p = xorb (parity_below s p) (q <? p).
Proof.
  induction p as [|p IH].
  - unfold parity_below, positions. reflexivity.
  - rewrite !parity_below_S, IH, tb_flip.
    destruct (Nat.eqb_spec p q), (Nat.ltb_spec q p), (Nat.ltb_spec q (S p)); try lia;
    destruct (parity_below s p), (tb s p); reflexivity.
Qed.

Lemma act_ann s p : tb s p = true -> act (Ann p) s = Some (parity_below s p, flipb s p).
Proof. intros H. cbn [act]. rewrite H, clearbit_flip by auto. reflexivity. Qed.
Lemma act_cre s p : tb s p = false -> act (Cre p) s = Some (parity_below s p, flipb s p).
Proof. intros H. cbn [act]. rewrite H, setbit_flip by auto. reflexivity. Qed.

(** ** closed forms *)
Definition ok1 (s : N) (x y : nat) : bool := tb s y && negb (tb (flipb s y) x).
Definition sg1 (s : N) (x y : nat) : bool :=
  xorb (parity_below s y) (xorb (parity_below s x) (y <? x)).

Lemma apply1 s x y : apply [Cre x; Ann y] s =
  if ok1 s x y then Some (sg1 s x y, flipb (flipb s y) x) else None.
Proof.
  unfold ok1, sg1. cbn [apply]. destruct (tb s y) eqn:Ey; cbn [andb].
  - rewrite act_ann by auto. destruct (tb (flipb s y) x) eqn:Ex; cbn [negb].
    + cbn [act]. rewrite Ex. reflexivity.
    + rewrite act_cre by auto. rewrite parity_flip. f_equal. f_equal.
      destruct (parity_below s y); reflexivity.
  - cbn [act]. rewrite Ey. reflexivity.
Qed.

Definition ok2 (s : N) (x z w y : nat) : bool :=
  (tb s y && tb (flipb s y) w) &&
  (negb (tb (flipb (flipb s y) w) z) && negb (tb (flipb (flipb (flipb s y) w) z) x)).
Definition sg2 (s : N) (x z w y : nat) : bool :=
  xorb (parity_below s y) (xorb (xorb (parity_below s w) (y <? w))
  (xorb (xorb (xorb (parity_below s z) (y <? z)) (w <? z))
        (xorb (xorb (xorb (parity_below s x) (y <? x)) (w <? x)) (z <? x)))).

Lemma apply2 s x z w y : apply [Cre x; Cre z; Ann w; Ann y] s =
  if ok2 s x z w y then Some (sg2 s x z w y, flipb (flipb (flipb (flipb s y) w) z) x) else None.
Proof.
  unfold ok2, sg2. cbn [apply]. destruct (tb s y) eqn:Ey; cbn [andb].
  2:{ cbn [act]. rewrite Ey. reflexivity. }
  rewrite act_ann by auto. destruct (tb (flipb s y) w) eqn:Ew; cbn [andb].
  2:{ cbn [act]. rewrite Ew. reflexivity. }
  rewrite act_ann by auto. destruct (tb (flipb (flipb s y) w) z) eqn:Ez; cbn [andb negb].
  { cbn [act]. rewrite Ez. reflexivity. }
  rewrite act_cre by auto. destruct (tb (flipb (flipb (flipb s y) w) z) x) eqn:Ex; cbn [negb].
  { cbn [act]. rewrite Ex. reflexivity. }
  rewrite act_cre by auto. rewrite !parity_flip. f_equal. f_equal.
  rewrite xorb_false_l, !xorb_assoc. reflexivity.
Qed.

Lemma braket1_val bra s x y : braket bra [Cre x; Ann y] s =
  if ok1 s x y && (flipb (flipb s y) x =? bra)%N then sgn (sg1 s x y) else 0%Qc.
Proof.
  unfold braket. rewrite apply1. destruct (ok1 s x y); reflexivity.
Qed.
Lemma braket2_val bra s x z w y : braket bra [Cre x; Cre z; Ann w; Ann y] s =
  if ok2 s x z w y && (flipb (flipb (flipb (flipb s y) w) z) x =? bra)%N
  then sgn (sg2 s x z w y) else 0%Qc.
Proof.
  unfold braket. rewrite apply2. destruct (ok2 s x z w y); reflexivity.
Qed.

(** the conditions as propositions *)
Lemma ok1_spec s x y : ok1 s x y = true <-> tb s y = true /\ (x = y \/ tb s x = false).
Proof.
  unfold ok1. rewrite andb_true_iff, negb_true_iff, tb_flip.
  destruct (Nat.eqb_spec x y).
  - subst. destruct (tb s y); cbn; intuition congruence.
  - rewrite xorb_false_r. intuition congruence.
Qed.
Lemma ok2_spec s x z w y : ok2 s x z w y = true <->
  tb s y = true /\ tb s w = true /\ w <> y /\ z <> x /\
  (z = y \/ z = w \/ tb s z = false) /\ (x = y \/ x = w \/ tb s x = false).
Proof.
  unfold ok2. rewrite !andb_true_iff, !negb_true_iff, !tb_flip.
  destruct (Nat.eqb_spec w y), (Nat.eqb_spec z y), (Nat.eqb_spec z w), (Nat.eqb_spec x y),
    (Nat.eqb_spec x w), (Nat.eqb_spec x z); try (exfalso; lia);
  destruct (tb s y) eqn:Ey, (tb s w) eqn:Ew, (tb s z) eqn:Ez, (tb s x) eqn:Ex; cbn [xorb];
  try (exfalso; congruence);
  try (split; [intros [[? ?] [? ?]]; discriminate | intros (?&?&?&?&?&?); try lia; try discriminate;
    repeat match goal with H : _ \/ _ |- _ => destruct H end; try lia; discriminate]);
  try (split; [intros _; repeat split; auto; try lia | intros _; repeat split; auto]).
Qed.

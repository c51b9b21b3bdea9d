(** Shared vocabulary of the model: outcomes of C++ calls, bit access, sums.
    Nothing here models a particular function of /repo. *)
From Coq Require Export List Arith ZArith NArith Lia Bool.
From Coq Require Import Sorting.Permutation Sorting.Sorted.
Export ListNotations.
Open Scope nat_scope.

(** Why a C++ call did not return normally. *)
Inductive err :=
| Throw      (* a C++ exception is thrown *)
| UB         (* undefined behaviour: out-of-range access, clz(0), ... *)
| AssertFail (* an assert() fails (only in builds without NDEBUG) *)
| Hang       (* the call never returns *)
| NonFinite  (* a floating-point division by zero: the C++ result is inf or nan *).

Inductive res (A : Type) := Ok (a : A) | Err (e : err).
Arguments Ok {A} a. Arguments Err {A} e.

Definition bind {A B} (m : res A) (f : A -> res B) : res B :=
  match m with Ok a => f a | Err e => Err e end.
Notation "'do' x <- m ; k" := (bind m (fun x => k))
  (at level 200, x pattern, m at level 100, k at level 200).

(** [mapM f l]: run [f] on each element in order, stop at the first error. *)
Fixpoint mapM {A B} (f : A -> res B) (l : list A) : res (list B) :=
  match l with
  | [] => Ok []
  | a :: l' => do b <- f a; do bs <- mapM f l'; Ok (b :: bs)
  end.

Lemma mapM_ok {A B} (f : A -> res B) (g : A -> B) l :
  (forall a, In a l -> f a = Ok (g a)) -> mapM f l = Ok (map g l).
Proof.
  induction l as [|a l IH]; simpl; intros H; [reflexivity|].
  rewrite H by auto. simpl. rewrite IH by auto. reflexivity.
Qed.

(** Bit [i] of a bit string. *)
Definition tb (x : N) (i : nat) : bool := N.testbit x (N.of_nat i).

(** A bit string of width [W]: no bit at or above [W]. *)
Definition wf (W : nat) (x : N) : Prop := forall i, W <= i -> tb x i = false.

(** Determinant widths for which the spin-resolved functions of MACIS compile
    and which its programs use: 64 or 128 bits, alpha in the low half, beta in
    the high half. *)
Definition spin_width (W : nat) : Prop := W = 64 \/ W = 128.

(** Positions of the set bits below [W], in increasing order (specification
    vocabulary: a filter over all positions, not an algorithm of /repo). *)
Definition positions (W : nat) (x : N) : list nat := filter (tb x) (seq 0 W).

Lemma tb_ext x y : (forall i, tb x i = tb y i) -> x = y.
Proof.
  intros H. apply N.bits_inj. intros k. specialize (H (N.to_nat k)).
  unfold tb in H. rewrite N2Nat.id in H. exact H.
Qed.

Lemma tb_0 i : tb 0 i = false.
Proof. apply N.bits_0. Qed.

Lemma tb_and x y i : tb (N.land x y) i = tb x i && tb y i.
Proof. apply N.land_spec. Qed.
Lemma tb_or x y i : tb (N.lor x y) i = tb x i || tb y i.
Proof. apply N.lor_spec. Qed.
Lemma tb_xor x y i : tb (N.lxor x y) i = xorb (tb x i) (tb y i).
Proof. apply N.lxor_spec. Qed.

Lemma tb_ones W i : tb (N.ones (N.of_nat W)) i = (i <? W).
Proof.
  unfold tb. destruct (Nat.ltb_spec i W).
  - apply N.ones_spec_low. lia.
  - apply N.ones_spec_high. lia.
Qed.

Lemma tb_shl x k i :
  tb (N.shiftl x (N.of_nat k)) i = (k <=? i) && tb x (i - k).
Proof.
  unfold tb. destruct (Nat.leb_spec k i); simpl.
  - rewrite N.shiftl_spec_high' by lia. f_equal. lia.
  - apply N.shiftl_spec_low. lia.
Qed.

Lemma tb_shr x k i : tb (N.shiftr x (N.of_nat k)) i = tb x (i + k).
Proof.
  unfold tb. rewrite N.shiftr_spec' . f_equal. lia.
Qed.

Lemma tb_bit k i : tb (N.shiftl 1 (N.of_nat k)) i = (i =? k).
Proof.
  rewrite tb_shl. destruct (Nat.eqb_spec i k) as [->|Hn].
  - rewrite Nat.leb_refl, Nat.sub_diag. reflexivity.
  - destruct (Nat.leb_spec k i); simpl; [|reflexivity].
    unfold tb. apply (N.bits_above_log2 1). simpl. lia.
Qed.

Lemma tb_mod x W i : tb (x mod 2 ^ N.of_nat W) i = (i <? W) && tb x i.
Proof.
  unfold tb. destruct (Nat.ltb_spec i W); simpl.
  - apply N.mod_pow2_bits_low. lia.
  - apply N.mod_pow2_bits_high. lia.
Qed.

Lemma tb_div x W i : tb (x / 2 ^ N.of_nat W) i = tb x (i + W).
Proof. rewrite <- N.shiftr_div_pow2. apply tb_shr. Qed.

Lemma wf_lt W x : wf W x <-> (x < 2 ^ N.of_nat W)%N.
Proof.
  split.
  - intros H. replace x with (x mod 2 ^ N.of_nat W)%N.
    + apply N.mod_lt. apply N.pow_nonzero. lia.
    + apply tb_ext. intros i. rewrite tb_mod.
      destruct (Nat.ltb_spec i W); simpl; [reflexivity|]. symmetry; auto.
  - intros H i Hi. replace x with (x mod 2 ^ N.of_nat W)%N.
    + rewrite tb_mod. destruct (Nat.ltb_spec i W); [lia|reflexivity].
    + apply N.mod_small, H.
Qed.

Lemma wf_0 W : wf W 0. Proof. intros i _. apply tb_0. Qed.

(** Characterisation of [positions]. *)
Lemma positions_In W x i : In i (positions W x) <-> i < W /\ tb x i = true.
Proof.
  unfold positions. rewrite filter_In, in_seq. intuition lia.
Qed.

Lemma seq_sorted n : forall s, StronglySorted lt (seq s n).
Proof.
  induction n as [|n IH]; intros s; simpl; constructor; auto.
  apply Forall_forall. intros y. rewrite in_seq. lia.
Qed.

Lemma filter_sorted {A} (R : A -> A -> Prop) f l :
  StronglySorted R l -> StronglySorted R (filter f l).
Proof.
  induction 1 as [|a l Hl IH Hall]; simpl; [constructor|].
  destruct (f a); [constructor|]; auto.
  rewrite Forall_forall in *. intros y Hy. apply filter_In in Hy. apply Hall, Hy.
Qed.

Lemma positions_sorted W x : StronglySorted lt (positions W x).
Proof. apply filter_sorted, seq_sorted. Qed.

Lemma sorted_NoDup l : StronglySorted lt l -> NoDup l.
Proof.
  induction 1 as [|a l Hl IH Hall]; constructor; auto.
  rewrite Forall_forall in Hall. intros Hin. specialize (Hall _ Hin). lia.
Qed.

Lemma positions_NoDup W x : NoDup (positions W x).
Proof. apply sorted_NoDup, positions_sorted. Qed.

(** Two strictly increasing lists with the same elements are equal. *)
Lemma sorted_ext l l' :
  StronglySorted lt l -> StronglySorted lt l' ->
  (forall i, In i l <-> In i l') -> l = l'.
Proof.
  intros Hs. revert l'. induction Hs as [|a l Hl IH Ha]; intros l' Hs' E.
  - destruct l' as [|b l']; [reflexivity|].
    exfalso. apply (E b). left; reflexivity.
  - destruct Hs' as [|b l' Hl' Hb].
    + exfalso. apply (E a). left; reflexivity.
    + rewrite Forall_forall in Ha, Hb.
      assert (a = b).
      { assert (Ea : In a (b :: l')) by (apply E; left; reflexivity).
        assert (Eb : In b (a :: l)) by (apply E; left; reflexivity).
        destruct Ea as [Ea|Ea]; [congruence|].
        destruct Eb as [Eb|Eb]; [congruence|].
        specialize (Ha _ Eb). specialize (Hb _ Ea). lia. }
      subst b. f_equal. apply IH; auto. intros i. split; intros Hi.
      * assert (H : In i (a :: l')) by (apply E; right; exact Hi).
        destruct H as [<-|H]; [|exact H]. specialize (Ha _ Hi). lia.
      * assert (H : In i (a :: l)) by (apply E; right; exact Hi).
        destruct H as [<-|H]; [|exact H]. specialize (Hb _ Hi). lia.
Qed.

Lemma positions_ext W x y :
  wf W x -> wf W y -> positions W x = positions W y -> x = y.
Proof.
  intros Hx Hy E. apply tb_ext. intros i.
  destruct (Nat.ltb_spec i W).
  - assert (In i (positions W x) <-> In i (positions W y)) by (rewrite E; tauto).
    rewrite !positions_In in H0.
    destruct (tb x i), (tb y i); try reflexivity.
    + symmetry; apply H0; auto.
    + apply H0; auto.
  - rewrite Hx, Hy by lia. reflexivity.
Qed.

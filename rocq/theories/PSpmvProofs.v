(** Proofs about the communication plan of the distributed product. *)
From Coq Require Import QArith Qcanon Sorting.Permutation Sorting.Sorted.
From Verif Require Import Base Sums Nondet Ham SparseSpec CsrView CsrProofs Dist DistProofs Asci Constraint Collective CollectiveProofs Mem MemProofs Spmv SpmvSpec SpmvProofs.
Local Open Scope nat_scope.

(** ** the sorted set of column indices *)
Lemma set_insert_In x s y : In y (set_insert x s) <-> y = x \/ In y s.
Proof.
  induction s as [|z s IH]; cbn [set_insert]; [cbn; intuition|].
  destruct (Nat.ltb_spec x z); [cbn; intuition|]. destruct (Nat.eqb_spec x z) as [->|]; [cbn; intuition|].
  cbn [In]. rewrite IH. intuition.
Qed.
Lemma set_insert_sorted x s : StronglySorted lt s -> StronglySorted lt (set_insert x s).
Proof.
  induction 1 as [|z s S1 IH F]; cbn [set_insert]; [repeat constructor|].
  destruct (Nat.ltb_spec x z) as [L|L].
  - constructor; [constructor; auto|]. constructor; auto. rewrite Forall_forall in *. intros y Hy. specialize (F y Hy). lia.
  - destruct (Nat.eqb_spec x z) as [->|]; [constructor; auto|]. constructor; auto.
    rewrite Forall_forall in *. intros y Hy. apply set_insert_In in Hy. destruct Hy as [->|Hy]; [lia|auto].
Qed.
Lemma std_set_gen l : forall s, StronglySorted lt s ->
  StronglySorted lt (fold_left (fun s x => set_insert x s) l s) /\
  forall y, In y (fold_left (fun s x => set_insert x s) l s) <-> In y l \/ In y s.
Proof.
  induction l as [|x l IH]; intros s Hs; cbn [fold_left]; [cbn; intuition|].
  destruct (IH (set_insert x s) (set_insert_sorted x s Hs)) as [A B]. split; auto.
  intros y. rewrite B, set_insert_In. cbn [In]. intuition.
Qed.
Lemma std_set_sorted l : StronglySorted lt (std_set l).
Proof. apply std_set_gen. constructor. Qed.
Lemma std_set_In l y : In y (std_set l) <-> In y l.
Proof. unfold std_set. destruct (std_set_gen l []) as [_ H]; [constructor|]. rewrite H. cbn. intuition. Qed.

Lemma sorted_unique (l : list nat) : forall m, StronglySorted lt l -> StronglySorted lt m ->
  (forall x, In x l <-> In x m) -> l = m.
Proof.
  induction l as [|x l IH]; intros m Sl Sm E.
  - destruct m as [|y m]; auto. exfalso. apply (E y). left; auto.
  - destruct m as [|y m]; [exfalso; apply (E x); left; auto|].
    inversion Sl as [|? ? S1 F1]; subst. inversion Sm as [|? ? S2 F2]; subst. rewrite Forall_forall in F1, F2.
    assert (x = y).
    { pose proof (proj1 (E x) (or_introl eq_refl)) as A. pose proof (proj2 (E y) (or_introl eq_refl)) as B.
      destruct A as [A|A]; auto. destruct B as [B|B]; auto. specialize (F2 _ A). specialize (F1 _ B). lia. }
    subst y. f_equal. apply IH; auto. intros z. split; intros Hz.
    + destruct (proj1 (E z) (or_intror Hz)) as [->|]; auto. specialize (F1 _ Hz). lia.
    + destruct (proj2 (E z) (or_intror Hz)) as [->|]; auto. specialize (F2 _ Hz). lia.
Qed.
Lemma filter_sorted (p : nat -> bool) l : StronglySorted lt l -> StronglySorted lt (filter p l).
Proof.
  induction 1 as [|x l S1 IH F]; cbn [filter]; [constructor|]. destruct (p x); auto. constructor; auto.
  rewrite Forall_forall in *. intros y Hy. apply filter_In in Hy. apply F, Hy.
Qed.
Lemma seq_sorted n : forall a, StronglySorted lt (seq a n).
Proof.
  induction n as [|n IH]; intros a; cbn [seq]; constructor; auto.
  apply Forall_forall. intros x Hx. apply in_seq in Hx. lia.
Qed.

Lemma lower_bound_split_ok x l : StronglySorted lt l ->
  lower_bound_split x l = (filter (fun y => y <? x) l, filter (fun y => negb (y <? x)) l).
Proof.
  induction 1 as [|y l S1 IH F]; cbn [lower_bound_split filter]; auto.
  destruct (Nat.ltb_spec y x) as [L|L]; cbn [negb].
  - rewrite IH. reflexivity.
  - rewrite Forall_forall in F. f_equal.
    + clear - F L. induction l as [|z l IH]; auto. cbn [filter]. destruct (Nat.ltb_spec z x).
      * specialize (F z (or_introl eq_refl)). lia.
      * apply IH. intros; apply F; right; auto.
    + f_equal. clear - F L. induction l as [|z l IH]; auto. cbn [filter]. destruct (Nat.ltb_spec z x).
      * specialize (F z (or_introl eq_refl)). lia.
      * cbn [negb]. f_equal. apply IH. intros; apply F; right; auto.
Qed.
Lemma split_by_tiles_ok tiles : forall a b uniq, tiling a b tiles -> StronglySorted lt uniq ->
  (forall c, In c uniq -> a <= c) ->
  split_by_tiles uniq tiles = map (fun t => filter (fun c => (fst t <=? c) && (c <? snd t)) uniq) tiles.
Proof.
  induction tiles as [|[lo hi] ts IH]; intros a b uniq T SU HA; cbn [split_by_tiles map]; auto.
  inversion T as [|? ? ? ? L T']; subst. rewrite lower_bound_split_ok by auto. f_equal.
  - cbn [fst snd]. apply filter_ext_in. intros c Hc. specialize (HA c Hc). apply Nat.leb_le in HA. rewrite HA. reflexivity.
  - rewrite (IH hi b _ T').
    + apply map_ext_in. intros [lo' hi'] Ht. apply In_nth_error in Ht. destruct Ht as [k Ek].
      destruct (tiling_nth _ _ _ T' _ _ _ Ek) as (L1 & _ & _). cbn [fst snd].
      clear - L1. induction uniq as [|c u IHu]; auto. cbn [filter].
      destruct (Nat.ltb_spec c hi); cbn [negb filter].
      * destruct (Nat.leb_spec lo' c); [lia|]. cbn [andb]. exact IHu.
      * rewrite IHu. reflexivity.
    + apply filter_sorted, SU.
    + intros c Hc. apply filter_In in Hc. destruct Hc as [_ Hc]. destruct (Nat.ltb_spec c hi); [discriminate|lia].
Qed.

(** ** messages *)
Section MESSAGES.
  Context {X : Type} (P : nat) (m : nat -> nat -> list X).
  Notation ne l := (negb (length l =? 0)).
  Definition box (l : list X) : list (list X) := if ne l then [l] else [].

  Lemma filter_dest d s l : NoDup l ->
    map snd (filter (fun x : nat * list X => fst x =? d) (filter (fun ic => ne (snd ic)) (map (fun i => (i, m s i)) l))) =
    if existsb (Nat.eqb d) l then box (m s d) else [].
  Proof.
    induction 1 as [|i l Hi ND IH]; cbn [map filter existsb]; auto. cbn [snd].
    destruct (ne (m s i)) eqn:E; cbn [filter map].
    - cbn [fst]. destruct (Nat.eqb_spec i d) as [->|N].
      + cbn [map snd]. rewrite Nat.eqb_refl. cbn [orb]. rewrite IH. unfold box. rewrite E.
        destruct (existsb (Nat.eqb d) l) eqn:X1; auto. apply existsb_exists in X1. destruct X1 as (y & Hy & Ey).
        apply Nat.eqb_eq in Ey. subst. contradiction.
      + rewrite IH. destruct (Nat.eqb_spec d i); [congruence|]. reflexivity.
    - rewrite IH. destruct (Nat.eqb_spec d i) as [->|N]; auto. cbn [orb]. unfold box. rewrite E.
      destruct (existsb _ l); reflexivity.
  Qed.

  Lemma recv_all_ok d l : forall mail, NoDup l -> length mail = P -> (forall s, In s l -> s < P) ->
    (forall s, s < P -> nth s mail [] = if existsb (Nat.eqb s) l then box (m s d) else []) ->
    recv_all mail (filter (fun ic => negb (snd ic =? 0)) (map (fun s => (s, length (m s d))) l)) =
    Ok (filter (fun x => ne x) (map (fun s => m s d) l)).
  Proof.
    induction l as [|s l IH]; intros mail ND HL HB HM; cbn [map filter].
    - cbn [recv_all]. replace (forallb _ mail) with true; [reflexivity|]. symmetry. apply forallb_forall.
      intros x Hx. apply (In_nth _ _ []) in Hx. destruct Hx as (s & Hs & <-). rewrite HM by lia. reflexivity.
    - apply NoDup_cons_iff in ND. destruct ND as [N1 N2]. cbn [snd].
      destruct (Nat.eqb_spec (length (m s d)) 0) as [E|E]; cbn [negb].
      + apply IH; auto. { intros; apply HB; right; auto. }
        intros s' Hs'. rewrite HM by auto. cbn [existsb]. destruct (Nat.eqb_spec s' s) as [->|]; auto.
        cbn [orb]. replace (existsb (Nat.eqb s) l) with false.
        * unfold box. rewrite E. reflexivity.
        * symmetry. apply not_true_iff_false. intros C. apply existsb_exists in C. destruct C as (y & Hy & Ey).
          apply Nat.eqb_eq in Ey. subst. contradiction.
      + cbn [recv_all]. assert (Ls : s < P) by (apply HB; left; auto).
        rewrite (nth_error_nth' mail []) by lia. rewrite HM by auto. cbn [existsb]. rewrite Nat.eqb_refl. cbn [orb].
        unfold box. destruct (Nat.eqb_spec (length (m s d)) 0); [lia|]. cbn [negb]. rewrite Nat.eqb_refl.
        rewrite put_ok by lia. cbn [bind]. rewrite IH; auto.
        * rewrite upd_length. auto.
        * intros; apply HB; right; auto.
        * intros s' Hs'. rewrite upd_nth by lia. destruct (Nat.eqb_spec s' s) as [->|N].
          -- replace (existsb (Nat.eqb s) l) with false; auto.
             symmetry. apply not_true_iff_false. intros C. apply existsb_exists in C. destruct C as (y & Hy & Ey).
             apply Nat.eqb_eq in Ey. subst. contradiction.
          -- rewrite HM by auto. cbn [existsb]. destruct (Nat.eqb_spec s' s); [congruence|]. reflexivity.
  Qed.

  Lemma existsb_seq d : d < P -> existsb (Nat.eqb d) (seq 0 P) = true.
  Proof. intros H. apply existsb_exists. exists d. split; [apply in_seq; lia|apply Nat.eqb_refl]. Qed.

  Lemma exchange_ok :
    exchange (map (fun s => filter (fun ic => ne (snd ic)) (map (fun d => (d, m s d)) (seq 0 P))) (seq 0 P))
      (map (fun d => filter (fun ic => negb (snd ic =? 0)) (map (fun s => (s, length (m s d))) (seq 0 P))) (seq 0 P)) =
    Ok (map (fun d => filter (fun x => ne x) (map (fun s => m s d) (seq 0 P))) (seq 0 P)).
  Proof.
    unfold exchange. rewrite !map_length, !seq_length.
    replace (forallb _ _) with true.
    2:{ symmetry. apply forallb_forall. intros out Ho. apply in_map_iff in Ho. destruct Ho as (s & <- & Hs).
        apply forallb_forall. intros x Hx. apply filter_In in Hx. destruct Hx as [Hx _].
        apply in_map_iff in Hx. destruct Hx as (d & <- & Hd). apply in_seq in Hd. cbn [fst]. apply Nat.ltb_lt. lia. }
    assert (C : forall {B} (f : nat -> B) l, combine l (map f l) = map (fun x => (x, f x)) l).
    { induction l; cbn; congruence. }
    rewrite C.
    rewrite (mapM_ok _ (fun dr => filter (fun x => ne x) (map (fun s => m s (fst dr)) (seq 0 P)))).
    - rewrite map_map. reflexivity.
    - intros dr Hdr. apply in_map_iff in Hdr. destruct Hdr as (d & <- & Hd). apply in_seq in Hd. cbn [fst snd].
      apply recv_all_ok.
      + apply seq_NoDup.
      + rewrite !map_length. apply seq_length.
      + intros s Hs. apply in_seq in Hs. lia.
      + intros s Hs. rewrite map_map, nth_map_seq by auto. rewrite filter_dest by apply seq_NoDup.
        rewrite !existsb_seq by lia. reflexivity.
  Qed.
End MESSAGES.

(** Proofs about distributed selection. *)
From Coq Require Import Sorting.Permutation Sorting.Sorted.
From Verif Require Import Base Nondet Asci Constraint ConstraintSearch3 Collective CollectiveSpec CollectiveProofs.
Local Opaque allreduce_one.
Local Open Scope nat_scope.

Lemma filter_perm {A} (p : A -> bool) l l' : Permutation l l' -> Permutation (filter p l) (filter p l').
Proof.
  induction 1; cbn [filter]; auto.
  - destruct (p x); auto.
  - destruct (p x), (p y); auto. apply perm_swap.
  - etransitivity; eauto.
Qed.
Lemma filter_le {A} (p q : A -> bool) l : (forall x, In x l -> p x = true -> q x = true) ->
  length (filter p l) <= length (filter q l).
Proof.
  induction l as [|x r IH]; intros H; auto. cbn [filter].
  assert (length (filter p r) <= length (filter q r)) by (apply IH; intros; apply H; [right|]; auto).
  destruct (p x) eqn:E.
  - rewrite (H x); cbn [length]; auto; [lia|left; auto].
  - destruct (q x); cbn [length]; lia.
Qed.
Lemma filter_len_le {A} (p : A -> bool) l : length (filter p l) <= length l.
Proof. induction l as [|x r IH]; auto. cbn [filter]. destruct (p x); cbn [length]; lia. Qed.
Lemma filter_full {A} (p : A -> bool) l : (forall x, In x l -> p x = true) -> filter p l = l.
Proof. induction l as [|x r IH]; intros H; auto. cbn [filter]. rewrite H by (left; auto). f_equal. apply IH. intros; apply H; right; auto. Qed.
Lemma filter_empty {A} (p : A -> bool) l : (forall x, In x l -> p x = false) -> filter p l = [].
Proof. induction l as [|x r IH]; intros H; auto. cbn [filter]. rewrite H by (left; auto). apply IH. intros; apply H; right; auto. Qed.

Lemma leg_partition_always {B} (pl pe : B -> bool) l :
  always (leg_partition pl pe l) (fun t =>
    Permutation l (fst (fst t) ++ snd (fst t) ++ snd t) /\
    Forall (fun x => pl x = true) (fst (fst t)) /\
    Forall (fun x => pl x = false /\ pe x = true) (snd (fst t)) /\
    Forall (fun x => pl x = false /\ pe x = false) (snd t)).
Proof.
  unfold leg_partition.
  assert (SP : forall (p : B -> bool) l, always (std_partition p l) (fun pr =>
     Permutation l (fst pr ++ snd pr) /\ Forall (fun x => p x = true) (fst pr) /\ Forall (fun x => p x = false) (snd pr))).
  { intros p m. destruct (std_partition_always p m) as [E _]. split; auto.
    intros r (l1 & l2 & -> & P & F1 & F2). exists (l1, l2). auto. }
  eapply always_bind; [apply SP|]. intros [l1 l2] (P1 & F1 & F2). cbn [fst snd] in *.
  eapply always_bind; [apply SP|]. intros [l3 l4] (P2 & F3 & F4). cbn [fst snd] in *.
  apply always_ret. cbn [fst snd].
  rewrite Forall_forall in F1, F2, F3, F4.
  assert (I2 : forall x, In x (l3 ++ l4) -> pl x = false).
  { intros x Hx. apply F2. apply Permutation_sym in P2. eapply Permutation_in; eauto. }
  split; [rewrite P1, P2; auto|]. split; [apply Forall_forall; auto|]. split; apply Forall_forall; intros x Hx.
  - split; auto. apply I2, in_or_app. auto.
  - split; auto. apply I2, in_or_app. auto.
Qed.

Section ORDER.
  Context {A : Type} (dflt : A) (lt eq : A -> A -> bool).
  Hypothesis WO : weak_order lt.
  Hypothesis EQ : forall x y, eq x y = negb (lt x y) && negb (lt y x).

  Lemma irr x : lt x x = false.
  Proof. destruct (lt x x) eqn:E; auto. pose proof (proj1 WO x x E). congruence. Qed.
  Lemma nt x y z : lt y x = false -> lt z y = false -> lt z x = false.
  Proof. apply (proj2 WO). Qed.
  Lemma lt_le_lt x y z : lt x y = true -> lt z y = false -> lt x z = true.
  Proof.
    intros H1 H2. destruct (lt x z) eqn:E; auto. (* z <= x, y <= z -> y <= x *)
    rewrite (nt y z x H2 E) in H1. discriminate.
  Qed.
  Lemma le_lt_lt x y z : lt y x = false -> lt y z = true -> lt x z = true.
  Proof.
    intros H1 H2. destruct (lt x z) eqn:E; auto.
    rewrite (nt z x y E H1) in H2. discriminate.
  Qed.

  Lemma max_from_spec l : forall b, let m := max_from lt b l in In m (b :: l) /\ forall x, In x (b :: l) -> lt m x = false.
  Proof.
    induction l as [|y r IH]; intros b; cbn [max_from].
    - split; [left; auto|]. intros x [<-|[]]. apply irr.
    - destruct (lt b y) eqn:E.
      + destruct (IH y) as [I1 I2]. split; [right; exact I1|].
        intros x [<-|Hx]; [|apply I2; exact Hx].
        apply (nt b y). { apply (proj1 WO), E. } apply I2. left. auto.
      + destruct (IH b) as [I1 I2]. split; [destruct I1 as [I1|I1]; [left; exact I1|right; right; exact I1]|].
        intros x [<-|[<-|Hx]].
        * apply I2. left. auto.
        * apply (nt y b); auto. apply I2. left. auto.
        * apply I2. right. auto.
  Qed.

  Lemma kth_by_max_ok k l : 1 <= k -> k <= length l -> always (kth_by_max lt k l) (is_kth lt k l).
  Proof.
    intros H1 H2. unfold kth_by_max.
    eapply always_bind; [apply (nth_element_always lt (proj1 WO) (proj2 WO) k l H2)|].
    intros [l1 l2] (P & L & X). cbn [fst snd] in *. destruct l1 as [|x r]; [cbn in L; lia|].
    apply always_ret. destruct (max_from_spec r x) as [M1 M2]. set (m := max_from lt x r) in *.
    assert (PF : forall p, length (filter p l) = length (filter p (x :: r)) + length (filter p l2)).
    { intros p. rewrite (Permutation_length (filter_perm p _ _ P)), filter_app, app_length. reflexivity. }
    split.
    - apply Permutation_sym in P. eapply Permutation_in; [exact P|]. apply in_or_app. left. exact M1.
    - rewrite !PF. split.
      + rewrite (filter_empty (fun x0 => lt x0 m) l2) by (intros y Hy; apply (X m y M1 Hy)).
        assert (F : length (filter (fun x0 => lt x0 m) (x :: r)) < length (x :: r)).
        { clear - M1 WO. pose proof (irr m) as I. revert M1. generalize (x :: r). intros q Hq.
          induction q as [|y q IH]; [destruct Hq|]. cbn [filter].
          destruct Hq as [->|Hq].
          - rewrite I. pose proof (filter_len_le (fun x => lt x m) q). cbn [length]. lia.
          - specialize (IH Hq). destruct (lt y m); cbn [length]; lia. }
        cbn [length Nat.add] in *. lia.
      + rewrite (filter_full (fun x0 => negb (lt m x0)) (x :: r)) by (intros y Hy; rewrite M2; auto). lia.
  Qed.
  Lemma kth_by_max_too_large k l r : length l < k -> kth_by_max lt k l r -> r = Err UB.
  Proof.
    intros H K. unfold kth_by_max in K. unfold nth_element in K.
    apply Nat.leb_gt in H. rewrite H in K. destruct K as [(e & E & ->)|(a & E & _)]; congruence.
  Qed.

  (** the three parts of a distributed list *)
  Definition parts_ok (p : A) (data L E G : list (list A)) : Prop :=
    length L = length data /\ length E = length data /\ length G = length data /\
    Permutation (concat data) (concat L ++ concat E ++ concat G) /\
    Forall (fun x => lt x p = true) (concat L) /\
    Forall (fun x => lt x p = false /\ lt p x = false) (concat E) /\
    Forall (fun x => lt p x = true) (concat G).

  Lemma parts_always p data :
    always (mapND (leg_partition (fun x => lt x p) (fun x => eq x p)) data) (fun parts =>
      parts_ok p data (map (fun q => fst (fst q)) parts) (map (fun q => snd (fst q)) parts) (map snd parts)).
  Proof.
    eapply always_weaken; [|apply mapND_always; intros a _; apply leg_partition_always]. cbn beta.
    intros parts F. induction F as [|d t ds ts (P & F1 & F2 & F3) F IH].
    - unfold parts_ok. cbn [map concat length app]. auto 10.
    - destruct IH as (L1 & L2 & L3 & P' & G1 & G2 & G3). unfold parts_ok. cbn [map concat length].
      rewrite !map_length in *. split; [congruence|]. split; [congruence|]. split; [congruence|].
      split; [|split; [|split]].
      + rewrite P, P'. destruct t as [[a b] c]. cbn [fst snd].
        set (La := concat (map _ ts)). set (Ea := concat (map _ ts)). set (Ga := concat (map _ ts)).
        rewrite <- !app_assoc. apply Permutation_app_head.
        transitivity (b ++ La ++ c ++ Ea ++ Ga).
        { apply Permutation_app_head. rewrite !app_assoc. do 2 apply Permutation_app_tail. apply Permutation_app_comm. }
        transitivity (La ++ b ++ c ++ Ea ++ Ga).
        { rewrite !app_assoc. do 3 apply Permutation_app_tail. apply Permutation_app_comm. }
        do 2 apply Permutation_app_head. rewrite !app_assoc. apply Permutation_app_tail. apply Permutation_app_comm.
      + apply Forall_app. auto.
      + apply Forall_app. split; auto. eapply Forall_impl; [|exact F2]. cbn beta. intros x [X1 X2].
        rewrite EQ, X1 in X2. cbn [negb andb] in X2. split; auto. destruct (lt p x); auto; discriminate.
      + apply Forall_app. split; auto. eapply Forall_impl; [|exact F3]. cbn beta. intros x [X1 X2].
        rewrite EQ, X1 in X2. cbn [negb andb] in X2. destruct (lt p x); auto; discriminate.
  Qed.

  Lemma parts_len p data L E G : parts_ok p data L E G -> In p (concat data) ->
    length (concat data) = length (concat L) + length (concat E) + length (concat G) /\ 1 <= length (concat E).
  Proof.
    intros (_ & _ & _ & P & F1 & F2 & F3) Hp. split.
    - rewrite (Permutation_length P), !app_length. lia.
    - apply (Permutation_in _ P) in Hp. apply in_app_or in Hp. destruct Hp as [Hp|Hp]; [|apply in_app_or in Hp; destruct Hp as [Hp|Hp]].
      + rewrite Forall_forall in F1. specialize (F1 p Hp). rewrite irr in F1. discriminate.
      + destruct (concat E); [destruct Hp|cbn; lia].
      + rewrite Forall_forall in F3. specialize (F3 p Hp). rewrite irr in F3. discriminate.
  Qed.

  Lemma kth_L p data L E G k v : parts_ok p data L E G -> is_kth lt k (concat L) v -> is_kth lt k (concat data) v.
  Proof.
    intros (_ & _ & _ & P & F1 & F2 & F3) (I & K1 & K2).
    rewrite Forall_forall in F1, F2, F3. pose proof (F1 v I) as Hv.
    assert (PF : forall q, length (filter q (concat data)) =
       length (filter q (concat L)) + (length (filter q (concat E)) + length (filter q (concat G)))).
    { intros q. rewrite (Permutation_length (filter_perm q _ _ P)), !filter_app, !app_length. reflexivity. }
    split; [apply Permutation_sym in P; apply (Permutation_in _ P); apply in_or_app; auto|].
    rewrite !PF. split; [|lia].
    rewrite (filter_empty _ (concat E)), (filter_empty _ (concat G)); [cbn [length]; lia| |].
    - intros x Hx. specialize (F3 x Hx). apply (proj1 WO). apply (le_lt_lt v p x); auto. apply (proj1 WO), Hv.
    - intros x Hx. destruct (F2 x Hx) as [X1 X2]. apply (nt v p x); auto. apply (proj1 WO), Hv.
  Qed.
  Lemma kth_E p data L E G k : parts_ok p data L E G -> In p (concat data) ->
    length (concat L) < k -> k <= length (concat L) + length (concat E) -> is_kth lt k (concat data) p.
  Proof.
    intros PO Hp K1 K2. destruct PO as (_ & _ & _ & P & F1 & F2 & F3).
    rewrite Forall_forall in F1, F2, F3.
    assert (PF : forall q, length (filter q (concat data)) =
       length (filter q (concat L)) + (length (filter q (concat E)) + length (filter q (concat G)))).
    { intros q. rewrite (Permutation_length (filter_perm q _ _ P)), !filter_app, !app_length. reflexivity. }
    split; auto. rewrite !PF. split.
    - rewrite (filter_full _ (concat L)) by auto.
      rewrite (filter_empty _ (concat E)), (filter_empty _ (concat G)); [cbn [length]; lia| |].
      + intros x Hx. apply (proj1 WO), F3, Hx.
      + intros x Hx. apply F2, Hx.
    - rewrite (filter_full _ (concat L)); [|intros x Hx; rewrite (proj1 WO x p); auto].
      rewrite (filter_full _ (concat E)); [lia|]. intros x Hx. rewrite (proj2 (F2 x Hx)). auto.
  Qed.
  Lemma kth_G p data L E G k v : parts_ok p data L E G ->
    is_kth lt k (concat G) v -> is_kth lt (k + (length (concat L) + length (concat E))) (concat data) v.
  Proof.
    intros (_ & _ & _ & P & F1 & F2 & F3) (I & K1 & K2).
    rewrite Forall_forall in F1, F2, F3. pose proof (F3 v I) as Hv.
    assert (PF : forall q, length (filter q (concat data)) =
       length (filter q (concat L)) + (length (filter q (concat E)) + length (filter q (concat G)))).
    { intros q. rewrite (Permutation_length (filter_perm q _ _ P)), !filter_app, !app_length. reflexivity. }
    split; [apply Permutation_sym in P; apply (Permutation_in _ P); rewrite !in_app_iff; auto|].
    rewrite !PF. split.
    - pose proof (filter_len_le (fun x => lt x v) (concat L)). pose proof (filter_len_le (fun x => lt x v) (concat E)). lia.
    - rewrite (filter_full _ (concat L)), (filter_full _ (concat E)); [lia| |].
      + intros x Hx. destruct (F2 x Hx) as [X1 X2]. rewrite (proj1 WO x v); auto. apply (le_lt_lt x p v); auto.
      + intros x Hx. rewrite (proj1 WO x v); auto. apply (le_lt_lt x p v); auto. apply (proj1 WO), F1, Hx.
  Qed.

  Definition iter_post (k : nat) (data : list (list A)) (nx : qs_next) : Prop :=
    match nx with
    | QGather => length (concat data) < length data
    | QFound v => k <= length (concat data) -> 1 <= k -> is_kth lt k (concat data) v
    | QNext k' data' => length data' = length data /\ length (concat data') < length (concat data) /\
        (1 <= k -> 1 <= k') /\ (k <= length (concat data) -> k' <= length (concat data')) /\
        (length (concat data) < k -> length (concat data') < k') /\
        forall v, is_kth lt k' (concat data') v -> is_kth lt k (concat data) v
    end.
  Lemma list_sum_lens (data : list (list A)) : list_sum (map (@length A) data) = length (concat data).
  Proof. induction data as [|d r IH]; auto. cbn [map list_sum fold_right concat]. rewrite app_length. unfold list_sum in IH. lia. Qed.
  Lemma qs_iter_ok g k data : 2 <= length data -> (Z.of_nat (length (concat data)) < 2 ^ 31)%Z ->
    (length (concat data) < k -> forall v, ~ qs_iter lt eq g k data (Ok (QFound v))) /\
    always (qs_iter lt eq g k data) (iter_post k data).
  Proof.
    intros H2 HT. 
    assert (AL : always (qs_iter lt eq g k data) (fun nx => iter_post k data nx /\
       (length (concat data) < k -> forall v, nx <> QFound v))).
    2:{ split; [|eapply always_weaken; [|exact AL]; intros a [Ha _]; exact Ha].
        intros Hk v Hv. destruct AL as [_ AL]. destruct (AL _ Hv) as (a & E & _ & N). injection E as <-. exact (N Hk v eq_refl). }
    unfold qs_iter. fold (lens data).
    eapply always_bind.
    { apply always_det with (P := fun t => t = (sumz (lens data), lens data, starts 0 (lens data)))
        (a := (sumz (lens data), lens data, starts 0 (lens data))); auto.
      apply tgs_ok; [apply lens_nonneg|rewrite lens_sum; lia]. }
    intros [[tn sz] ls] E. injection E as -> -> ->. rewrite lens_sum.
    destruct (Z.ltb_spec (Z.of_nat (length (concat data))) (Z.of_nat (length data))) as [HL|HL].
    { apply always_ret. split; [cbn; lia|discriminate]. }
    destruct (Z.eqb_spec (Z.of_nat (length (concat data))) 1) as [H1|_]; [lia|].
    set (n := Z.of_nat (length (concat data))) in *.
    rewrite (to_size_id (n - 1)) by lia.
    pose proof (Z.mod_pos_bound (Z.of_nat g) (n - 1) ltac:(lia)) as MB.
    set (i := (Z.of_nat g mod (n - 1))%Z) in *.
    rewrite (to_int_id i) by lia. rewrite (to_size_id i) by lia.
    destruct (upper_bound_owner data 0 i ltac:(lia) ltac:(rewrite lens_sum; fold n; lia)) as (o & d & st & U1 & U2 & U3 & U4).
    eapply always_bind; [apply always_det with (P := fun x => x = S o) (a := S o); auto|]. intros ub ->.
    replace (S o - 1) with o by lia.
    eapply always_bind; [apply always_det with (P := fun x => x = d) (a := d); auto; unfold at_; rewrite U2; auto|]. intros ? ->.
    eapply always_bind; [apply always_det with (P := fun x => x = st) (a := st); auto; unfold at_; rewrite U3; auto|]. intros ? ->.
    assert (SB : (0 <= st)%Z).
    { pose proof (starts_ge (lens data) 0 (lens_nonneg data)) as F. rewrite Forall_forall in F. apply F. eapply nth_error_In; eauto. }
    rewrite (to_int_id (i - st)) by lia.
    destruct (Z.ltb_spec (i - st) 0) as [Bad|_]; [lia|].
    destruct (nth_error d (Z.to_nat (i - st))) as [p|] eqn:EP; [|apply nth_error_None in EP; lia].
    assert (Hp : In p (concat data)). { apply in_concat. exists d. split; eapply nth_error_In; eauto. }
    eapply always_bind; [apply always_det with (P := fun x => x = p) (a := p); auto; unfold at_; rewrite EP; auto|]. intros ? ->.
    eapply always_bind; [apply parts_always|]. cbn beta. intros parts PO.
    set (L := map (fun q => fst (fst q)) parts) in *. set (E := map (fun q => snd (fst q)) parts) in *. set (G := map snd parts) in *.
    destruct (parts_len p data L E G PO Hp) as [PL PE].
    destruct PO as (LL & LE & LG & PO'). assert (PO : parts_ok p data L E G) by (repeat split; auto; apply PO'). clear PO'.
    assert (N0 : forall (X : list (list A)), length X = length data ->
      nth 0 (map (fun _ => list_sum (map (@length A) X)) (map (@length A) X)) 0 = length (concat X)).
    { intros X HX. destruct X as [|x r]; [cbn in HX; lia|]. cbn [map nth]. rewrite <- list_sum_lens. reflexivity. }
    eapply always_bind; [eapply always_det with (P := fun x => x = _); [apply allreduce_one_ok|reflexivity]|]. intros ? ->.
    eapply always_bind; [eapply always_det with (P := fun x => x = _); [apply allreduce_one_ok|reflexivity]|]. intros ? ->.
    rewrite (N0 L LL), (N0 E LE).
    destruct (Nat.leb_spec k (length (concat L))) as [KL|KL]; [|destruct (Nat.leb_spec k (length (concat L) + length (concat E))) as [KE|KE]].
    - apply always_ret. split; [|discriminate]. cbn [iter_post].
      split; auto. split; [lia|]. split; auto. split; [lia|]. split; [lia|].
      intros v. apply (kth_L p data L E G); auto.
    - apply always_ret. split.
      + cbn [iter_post]. intros _ _. apply (kth_E p data L E G); auto.
      + intros HK. exfalso. lia.
    - apply always_ret. split; [|discriminate]. cbn [iter_post].
      split; auto. split; [lia|]. split; [lia|]. split; [lia|]. split; [lia|].
      intros v Hv. replace k with (k - (length (concat L) + length (concat E)) + (length (concat L) + length (concat E))) by lia.
      apply (kth_G p data L E G); auto.
  Qed.

  Lemma gather_eq k data : (Z.of_nat (length (concat data)) < 2 ^ 31)%Z -> forall r,
    qs_gather dflt lt k data r <-> mapND (fun _ => kth_by_max lt k (concat data)) data r.
  Proof.
    intros HT r. unfold qs_gather.
    assert (E0 : map (fun d : list A => to_int (Z.of_nat (length d))) data = lens data).
    { apply map_ext_in. intros d Hd. apply to_int_id.
      assert (length d <= length (concat data)).
      { clear - Hd. induction data as [|x r IH]; [destruct Hd|]. cbn [concat]. rewrite app_length. destruct Hd as [->|Hd]; [lia|]. specialize (IH Hd). lia. }
      lia. }
    rewrite E0. rewrite tgs_ok by (try apply lens_nonneg; rewrite lens_sum; lia).
    assert (EG : MPI_Allgatherv data (starts 0 (lens data)) (repeat dflt (Z.to_nat (sumz (lens data)))) = Ok (concat data)).
    { apply MPI_Allgatherv_ok. rewrite repeat_length, lens_sum, Nat2Z.id. reflexivity. }
    split.
    - intros [(e & He & ->)|(a & Ha & H)]; [discriminate|]. unfold det in Ha. injection Ha as ->. rewrite EG in H.
      destruct H as [(e & He & ->)|(b & Hb & H)]; [discriminate|]. unfold det in Hb. injection Hb as ->. exact H.
    - intros H. right. eexists. split; [reflexivity|]. cbn beta iota. rewrite EG. right. eexists. split; [reflexivity|]. exact H.
  Qed.

  Lemma qs_loop_ok : forall fuel g k data, 2 <= length data -> (Z.of_nat (length (concat data)) < 2 ^ 31)%Z ->
    1 <= k -> k <= length (concat data) -> length (concat data) < fuel ->
    always (qs_loop dflt lt eq fuel g k data) (fun vs => length vs = length data /\ Forall (is_kth lt k (concat data)) vs).
  Proof.
    induction fuel as [|f IH]; intros g k data H2 HT H1 HK HF; [lia|]. cbn [qs_loop].
    eapply always_bind; [apply (qs_iter_ok (g 0) k data H2 HT)|]. intros nx Hnx.
    destruct nx as [|v|k' data']; cbn [iter_post] in Hnx.
    - assert (X : always (mapND (fun _ => kth_by_max lt k (concat data)) data)
         (fun vs => length vs = length data /\ Forall (is_kth lt k (concat data)) vs)).
      { eapply always_weaken; [|apply mapND_always with (R := fun _ v => is_kth lt k (concat data) v)].
        - cbn beta. intros vs F. split.
          + clear - F. induction F; cbn [length]; auto.
          + revert F. generalize (concat data) at 1 2. intros l0 F. clear - F. induction F; auto.
        - intros d _. apply kth_by_max_ok; auto. }
      destruct X as [[r Hr] X]. split.
      + exists r. apply gather_eq; auto.
      + intros r' Hr'. apply gather_eq in Hr'; auto.
    - apply always_ret. rewrite map_length. split; auto. apply Forall_forall. intros x Hx.
      apply in_map_iff in Hx. destruct Hx as (d & <- & _). auto.
    - destruct Hnx as (N1 & N2 & N3 & N4 & N5 & N6).
      eapply always_weaken; [|apply (IH (fun i => g (S i)) k' data'); try lia].
      cbn beta. intros vs [V1 V2]. split; [congruence|]. eapply Forall_impl; [|exact V2]. exact N6.
  Qed.
  Lemma qs_loop_too_large : forall fuel g k data, 2 <= length data -> (Z.of_nat (length (concat data)) < 2 ^ 31)%Z ->
    length (concat data) < k -> length (concat data) < fuel ->
    forall r, qs_loop dflt lt eq fuel g k data r -> r = Err UB.
  Proof.
    induction fuel as [|f IH]; intros g k data H2 HT HK HF r Hr; [lia|]. cbn [qs_loop] in Hr.
    destruct (qs_iter_ok (g 0) k data H2 HT) as [NF [_ AL]].
    destruct Hr as [(e & He & ->)|(nx & Hnx & Hr)].
    - destruct (AL _ He) as (a & E & _). discriminate.
    - destruct (AL _ Hnx) as (a & E & Hp). injection E as <-.
      destruct nx as [|v|k' data']; cbn [iter_post] in Hp.
      + apply gather_eq in Hr; auto. destruct data as [|d0 ds]; [cbn in H2; lia|]. cbn [mapND] in Hr.
        set (l := concat (d0 :: ds)) in *.
        destruct Hr as [(e & He & ->)|(b & Hb & _)].
        * apply kth_by_max_too_large in He; auto. injection He as ->. reflexivity.
        * apply kth_by_max_too_large in Hb; auto. discriminate.
      + exfalso. exact (NF HK v Hnx).
      + destruct Hp as (N1 & N2 & N3 & N4 & N5 & N6). apply (IH (fun i => g (S i)) k' data' ltac:(lia) ltac:(lia) (N5 HK) ltac:(lia) r Hr).
  Qed.

  Lemma dist_quickselect_ok fuel g k data : data <> [] -> (Z.of_nat (length (concat data)) < 2 ^ 31)%Z ->
    1 <= k -> k <= length (concat data) -> length (concat data) < fuel ->
    always (dist_quickselect dflt lt eq fuel g k data)
      (fun vs => length vs = length data /\ Forall (is_kth lt k (concat data)) vs).
  Proof.
    intros NE HT H1 HK HF. destruct data as [|d [|d2 ds]]; [congruence| |].
    - cbn [dist_quickselect concat] in *. rewrite app_nil_r in *.
      eapply always_bind; [apply (kth_by_max_ok k d H1 HK)|]. intros v Hv. apply always_ret. cbn [length]. auto.
    - apply qs_loop_ok; auto. cbn. lia.
  Qed.
  Lemma dist_quickselect_too_large fuel g k data : data <> [] -> (Z.of_nat (length (concat data)) < 2 ^ 31)%Z ->
    length (concat data) < k -> length (concat data) < fuel ->
    forall r, dist_quickselect dflt lt eq fuel g k data r -> r = Err UB.
  Proof.
    intros NE HT HK HF r Hr. destruct data as [|d [|d2 ds]]; [congruence| |].
    - cbn [dist_quickselect concat] in *. rewrite app_nil_r in *.
      destruct Hr as [(e & He & ->)|(b & Hb & _)].
      * apply kth_by_max_too_large in He; auto. injection He as ->. reflexivity.
      * apply kth_by_max_too_large in Hb; auto. discriminate.
    - apply (qs_loop_too_large fuel g k (d :: d2 :: ds)); auto. cbn. lia.
  Qed.
  (* the k-th element is unique up to ties *)
  Lemma is_kth_tie k l v w : is_kth lt k l v -> is_kth lt k l w -> lt v w = false.
  Proof.
    intros (_ & _ & V2) (_ & W1 & _). destruct (lt v w) eqn:E; auto. exfalso.
    assert (length (filter (fun x => negb (lt v x)) l) <= length (filter (fun x => lt x w) l)).
    { apply filter_le. intros x _ Hx. destruct (lt v x) eqn:F; [discriminate|]. apply (le_lt_lt x v w); auto. }
    lia.
  Qed.
End ORDER.

(** Proofs about dist_constraint_general: assignment to ranks. *)
From Coq Require Import Sorting.Permutation Sorting.Sorted.
From Verif Require Import Base Nondet Bits BitsProofs SD Spec SDProofs SDProofs2 SDProofs3 Ham Asci AsciContrib AsciContrib2
  Constraint ConstraintSpec ConstraintProofs ConstraintProofs2 ConstraintProofs3 ConstraintDist.
Local Open Scope nat_scope.

(** first smallest element *)
Section MIN.
  Lemma min_from_spec l : forall i best bv, best < i ->
    (min_index_from i best bv l = best /\ (forall k, k < length l -> bv <= nth k l 0)) \/
    (exists k, k < length l /\ min_index_from i best bv l = i + k /\ nth k l 0 < bv /\
       forall k', k' < length l -> nth k l 0 <= nth k' l 0).
  Proof.
    induction l as [|x r IH]; intros i best bv Hb; cbn [min_index_from length].
    - left. split; auto. intros; lia.
    - destruct (Nat.ltb_spec x bv) as [L|L].
      + right. destruct (IH (S i) i x ltac:(lia)) as [[E H]|(k & Lk & E & H1 & H2)].
        * exists 0. split; [lia|]. split; [rewrite E; lia|]. split; auto. intros [|k'] Hk'; cbn [nth]; auto. apply H. lia.
        * exists (S k). split; [lia|]. split; [rewrite E; lia|]. cbn [nth]. split; [lia|]. intros [|k'] Hk'; cbn [nth]; [lia|].
          apply H2. lia.
      + destruct (IH (S i) best bv ltac:(lia)) as [[E H]|(k & Lk & E & H1 & H2)].
        * left. split; auto. intros [|k'] Hk'; cbn [nth]; auto. apply H. lia.
        * right. exists (S k). split; [lia|]. split; [rewrite E; lia|]. cbn [nth]. split; auto.
          intros [|k'] Hk'; cbn [nth]; [lia|]. apply H2. lia.
  Qed.
  Lemma min_index_ok l : l <> [] -> min_index l < length l /\ forall k, k < length l -> nth (min_index l) l 0 <= nth k l 0.
  Proof.
    destruct l as [|x r]; [congruence|]. intros _. cbn [min_index].
    destruct (min_from_spec r 1 0 x ltac:(lia)) as [[E H]|(k & Lk & E & H1 & H2)]; rewrite E; cbn [length].
    - split; [lia|]. intros [|k] Hk; cbn [nth]; auto. apply H. lia.
    - split; [lia|]. cbn [nth plus]. intros [|k'] Hk'; [lia|]. apply H2. lia.
  Qed.
End MIN.

Lemma add_at_length l : forall i w, length (add_at i w l) = length l.
Proof. induction l as [|x r IH]; intros [|i] w; cbn; auto. Qed.
Lemma add_at_nth l : forall i w k, i < length l -> nth k (add_at i w l) 0 = nth k l 0 + (if k =? i then w else 0).
Proof.
  induction l as [|x r IH]; intros [|i] w k Hi; cbn [length] in Hi; try lia.
  - destruct k; cbn; lia.
  - destruct k; cbn [add_at nth]; [cbn; lia|]. rewrite IH by lia. reflexivity.
Qed.

(** the assignment with the work kept *)
Fixpoint assign2 {A} (loads : list nat) (l : list (A * nat)) : list (nat * (A * nat)) :=
  match l with
  | [] => []
  | (c, w) :: r => let m := min_index loads in (m, (c, w)) :: assign2 (add_at m w loads) r
  end.
Lemma assign2_eq {A} (l : list (A * nat)) : forall loads,
  assign_work loads l = map (fun p => (fst p, fst (snd p))) (assign2 loads l).
Proof. induction l as [|[c w] r IH]; intros loads; cbn [assign_work assign2 map fst snd]; auto. rewrite IH. reflexivity. Qed.
Lemma assign2_snd {A} (l : list (A * nat)) : forall loads, map snd (assign2 loads l) = l.
Proof. induction l as [|[c w] r IH]; intros loads; cbn [assign2 map snd]; auto. rewrite IH. reflexivity. Qed.
Lemma assign2_lt {A} (l : list (A * nat)) : forall loads, loads <> [] -> forall p, In p (assign2 loads l) -> fst p < length loads.
Proof.
  induction l as [|[c w] r IH]; intros loads NE p; cbn [assign2]; [intros []|]. cbn zeta. intros [<-|H].
  - cbn [fst]. apply min_index_ok, NE.
  - rewrite <- (add_at_length loads (min_index loads) w). apply IH; auto. intros E.
    apply (f_equal (@length nat)) in E. rewrite add_at_length in E. destruct loads; [congruence|discriminate].
Qed.
Definition load {A} (r : nat) (l : list (nat * (A * nat))) : nat :=
  list_sum (map (fun p => if fst p =? r then snd (snd p) else 0) l).
Lemma load_app {A} r (l1 l2 : list (nat * (A * nat))) : load r (l1 ++ l2) = load r l1 + load r l2.
Proof. unfold load. rewrite map_app, list_sum_app. reflexivity. Qed.
Definition balanced {A} n (l : list (nat * (A * nat))) : Prop :=
  forall p, In p l -> forall s, s < n -> load (fst p) l <= load s l + snd (snd p).
Lemma assign_balanced {A} (l : list (A * nat)) n : 0 < n -> forall loads done, length loads = n ->
  (forall r, r < n -> nth r loads 0 = load r done) -> balanced n done ->
  StronglySorted (fun x y => snd x <? snd y = false) l ->
  (forall p q, In p done -> In q l -> snd q <= snd (snd p)) -> (forall p, In p done -> fst p < n) ->
  balanced n (done ++ assign2 loads l).
Proof.
  intros Hn. induction l as [|[c w] r IH]; intros loads done Ll Hl Hb HS Hw Hr; cbn [assign2].
  - rewrite app_nil_r. exact Hb.
  - cbn zeta. set (m := min_index loads).
    destruct (min_index_ok loads) as [Lm Mm]; [intros E; rewrite E in Ll; cbn in Ll; lia|]. fold m in Lm, Mm. rewrite Ll in *.
    replace (done ++ (m, (c, w)) :: assign2 (add_at m w loads) r)
      with ((done ++ [(m, (c, w))]) ++ assign2 (add_at m w loads) r) by (rewrite <- app_assoc; reflexivity).
    inversion HS as [|? ? S1 S2]; subst. rewrite Forall_forall in S2.
    apply IH.
    + apply add_at_length.
    + intros k Hk. rewrite add_at_nth by lia. rewrite load_app, Hl by lia. unfold load at 3. cbn.
      rewrite (Nat.eqb_sym m k). destruct (k =? m); lia.
    + intros p Hp s Hs. rewrite !load_app. unfold load at 2 4. cbn [map fst snd list_sum fold_right].
      rewrite !Nat.add_0_r.
      apply in_app_or in Hp. destruct Hp as [Hp|[<-|[]]].
      * specialize (Hb p Hp s Hs). specialize (Hw p (c, w) Hp ltac:(left; auto)). cbn [snd] in Hw.
        destruct (Nat.eqb_spec m (fst p)) as [E|E]; [|destruct (m =? s); lia].
        rewrite <- E in *. pose proof (Mm s Hs) as M. rewrite !Hl in M by auto. destruct (m =? s); lia.
      * cbn [fst snd]. rewrite Nat.eqb_refl. pose proof (Mm s Hs) as M. rewrite !Hl in M by auto. destruct (m =? s); lia.
    + exact S1.
    + intros p q Hp Hq. apply in_app_or in Hp. destruct Hp as [Hp|[<-|[]]]; [apply Hw; auto; right; auto|].
      cbn [snd]. specialize (S2 q Hq). cbn [snd] in S2. destruct (Nat.ltb_spec w (snd q)); [discriminate|lia].
    + intros p Hp. apply in_app_or in Hp. destruct Hp as [Hp|[<-|[]]]; auto.
Qed.

Lemma buckets_perm {A} n (l : list (nat * A)) : (forall p, In p l -> fst p < n) ->
  Permutation (concat (map (fun r => map snd (filter (fun p => fst p =? r) l)) (seq 0 n))) (map snd l).
Proof.
  revert l. induction n as [|n IH]; intros l H.
  - destruct l as [|p l]; [reflexivity|]. specialize (H p ltac:(left; auto)). lia.
  - rewrite seq_S, map_app, concat_app. cbn [plus map concat]. rewrite app_nil_r.
    assert (E : map (fun r => map snd (filter (fun p => fst p =? r) l)) (seq 0 n) =
      map (fun r => map snd (filter (fun p => fst p =? r) (filter (fun p => fst p <? n) l))) (seq 0 n)).
    { apply map_ext_in. intros r Hr. apply in_seq in Hr. f_equal. clear - Hr. induction l as [|p l IH]; auto. cbn [filter].
      destruct (Nat.eqb_spec (fst p) r) as [E|E], (Nat.ltb_spec (fst p) n) as [L|L]; cbn [filter]; try lia.
      - rewrite E, Nat.eqb_refl, IH. reflexivity.
      - destruct (Nat.eqb_spec (fst p) r); [lia|]. exact IH.
      - exact IH. }
    rewrite E, IH by (intros p Hp; apply filter_In in Hp; destruct (Nat.ltb_spec (fst p) n); [auto|destruct Hp; discriminate]).
    rewrite <- map_app. apply Permutation_map. clear - H. induction l as [|p l IH]; auto. cbn [filter].
    pose proof (H p ltac:(left; auto)). destruct (Nat.ltb_spec (fst p) n), (Nat.eqb_spec (fst p) n); try lia.
    + cbn [app]. constructor. apply IH. intros; apply H; right; auto.
    + symmetry. apply Permutation_cons_app. symmetry. apply IH. intros; apply H; right; auto.
Qed.

(** sum of the work of a rank *)
Lemma load_bucket {A} r (l : list (nat * (A * nat))) :
  load r l = list_sum (map (fun p => snd (snd p)) (filter (fun p => fst p =? r) l)).
Proof.
  unfold load, list_sum. induction l as [|p l IH]; auto. cbn [map filter fold_right].
  rewrite IH. destruct (fst p =? r); reflexivity.
Qed.

Section DIST.
  Variables (W norb ns nd : nat) (alphas : list N) (nlevels n : nat).
  Hypothesis HW : norb <= W.
  Hypothesis H66 : norb <= 66.
  Hypothesis H64 : (N.of_nat W < 2 ^ 64)%N.
  Hypothesis Ha : forall al, In al alphas -> wf norb al.
  Hypothesis Hn : 0 < n.
  Notation work := (work norb W ns nd alphas).

  Definition dist_post (ranks : list (list constraint)) : Prop :=
    length ranks = n /\
    (forall c, In c (concat ranks) -> valid_con norb c /\ bs_count (con_C c) <= 3 + nlevels /\ work c <> 0) /\
    (forall x, nm x (concat ranks) <= 1) /\
    (forall x, wf norb x -> near alphas x -> 3 + nlevels <= bs_count x -> nm x (concat ranks) = 1) /\
    (forall r s c, r < n -> s < n -> In c (nth r ranks []) ->
       list_sum (map work (nth r ranks [])) <= list_sum (map work (nth s ranks [])) + work c).

  Lemma dist_ok : always (dist_constraint_general W nlevels norb ns nd alphas n) dist_post.
  Proof.
    unfold dist_constraint_general.
    apply always_bind with (P := fun ts => ts = map trip (triplets norb)).
    { eapply always_det; [|reflexivity]. apply mapM_ok. intros [[i j] k] H. apply triplets_In in H.
      apply triplet_ok; lia. }
    intros ts ->.
    assert (V : Forall (valid_con norb) (map trip (triplets norb))).
    { apply Forall_forall. intros c Hc. apply in_map_iff in Hc. destruct Hc as (t & <- & Ht). apply trip_valid, Ht. }
    destruct (with_work_ok norb W ns nd alphas HW H64 Ha _ V) as [tw Ew].
    apply always_bind with (P := fun wt => wt = (wl norb W ns nd alphas (map trip (triplets norb)), tw)).
    { eapply always_det; [exact Ew|reflexivity]. }
    intros wt ->. cbn [fst].
    apply always_bind with (P := fun _ : nat => True).
    { split; [exists (Ok 0), 0; reflexivity|]. intros r [a ->]. eauto. }
    intros avg _.
    eapply always_bind; [apply (split_ok norb W ns nd alphas HW H64 Ha avg nlevels 0), (LI_0 norb W ns nd alphas HW H64 Ha)|].
    cbn [plus]. intros cs HL.
    eapply always_bind.
    { apply std_sort_always.
      - intros x y H. apply Nat.ltb_lt in H. apply Nat.ltb_ge. lia.
      - intros x y z H1 H2. apply Nat.ltb_ge in H1, H2. apply Nat.ltb_ge. lia. }
    cbn beta. intros sorted [P HS]. eapply LI_perm in HL; [|exact P].
    apply always_ret. rewrite assign2_eq. set (ow := assign2 (repeat 0 n) sorted).
    assert (NE : repeat 0 n <> []) by (destruct n; [lia|discriminate]).
    assert (LT : forall p, In p ow -> fst p < n).
    { intros p Hp. rewrite <- (repeat_length 0 n). apply (assign2_lt sorted); auto. }
    set (ranks := map (fun r => map snd (filter (fun p => fst p =? r) (map (fun p => (fst p, fst (snd p))) ow))) (seq 0 n)).
    assert (PR : Permutation (concat ranks) (map fst sorted)).
    { unfold ranks. rewrite buckets_perm.
      - rewrite map_map. cbn [snd]. rewrite <- (map_map snd fst). unfold ow. rewrite assign2_snd. reflexivity.
      - intros p Hp. apply in_map_iff in Hp. destruct Hp as (q & <- & Hq). apply LT, Hq. }
    destruct HL as (H1 & H2 & H3).
    assert (SW : forall p, In p sorted -> snd p = work (fst p)) by (intros p Hp; apply H1; auto).
    assert (SO : forall p, In p ow -> In (snd p) sorted).
    { intros p Hp. rewrite <- (assign2_snd sorted (repeat 0 n)). apply in_map, Hp. }
    assert (NR : forall r, r < n -> nth r ranks [] = map (fun p => fst (snd p)) (filter (fun p => fst p =? r) ow)).
    { intros r Hr. unfold ranks. set (rk := fun r => map snd _).
      rewrite (nth_indep _ [] (rk 0)) by (rewrite map_length, seq_length; auto).
      rewrite map_nth, seq_nth by auto. cbn [plus]. unfold rk. generalize ow. intros l. induction l as [|p l IH]; auto.
      cbn [map filter fst]. destruct (fst p =? r); cbn [map snd]; rewrite IH; reflexivity. }
    assert (LR : forall r, r < n -> list_sum (map work (nth r ranks [])) = load r ow).
    { intros r Hr. rewrite NR, load_bucket, map_map by auto. f_equal. apply map_ext_in. intros p Hp. apply filter_In in Hp.
      symmetry. apply SW, SO. tauto. }
    split; [unfold ranks; rewrite map_length, seq_length; reflexivity|]. split; [|split; [|split]].
    - intros c Hc. apply (Permutation_in c PR) in Hc. apply in_map_iff in Hc. destruct Hc as (p & <- & Hp).
      destruct (H1 p Hp) as (A & B & D & E). rewrite <- D. auto.
    - intros x. rewrite (nm_perm x _ _ PR). auto.
    - intros x A B D. rewrite (nm_perm x _ _ PR). auto.
    - intros r s c Hr Hs Hc. rewrite !LR by auto. rewrite NR in Hc by auto. apply in_map_iff in Hc.
      destruct Hc as (p & <- & Hp). apply filter_In in Hp. destruct Hp as [Hp E]. apply Nat.eqb_eq in E. subst r.
      rewrite <- (SW (snd p)) by (apply SO, Hp).
      apply (assign_balanced sorted n Hn (repeat 0 n) []); auto.
      + apply repeat_length.
      + intros r _. rewrite nth_repeat. reflexivity.
      + intros q [].
      + intros q q' [].
      + intros q [].
  Qed.
End DIST.

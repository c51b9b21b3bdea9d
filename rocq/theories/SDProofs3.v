(** Proofs about sd_operations, part 3: full CI space, residues, HF
    determinants, canonical strings. *)
From Coq Require Import Sorting.Permutation Sorting.Sorted QArith Qcanon Ascii.
From Verif Require Import Base Bits BitsProofs SD Spec SDProofs SDProofs2.
Local Open Scope nat_scope.

(** ** all boolean vectors of length n with k trues, in decreasing order *)

Fixpoint vecs (n k : nat) : list (list bool) :=
  match n, k with
  | 0, 0 => [[]]
  | 0, S _ => []
  | S n', 0 => map (cons false) (vecs n' 0)
  | S n', S k' => map (cons true) (vecs n' k') ++ map (cons false) (vecs n' (S k'))
  end.

Definition trues (v : list bool) : nat := length (filter (fun b => b) v).

Lemma vecs_In n : forall k v, In v (vecs n k) <-> length v = n /\ trues v = k.
Proof.
  induction n as [|n IH]; intros k v.
  - destruct k; cbn [vecs In].
    + split; [intros [<-|[]]; auto|]. intros [H _]. destruct v; [auto|discriminate].
    + split; [tauto|]. intros [H1 H2]. destruct v; discriminate.
  - destruct k; cbn [vecs].
    + rewrite in_map_iff. split.
      * intros (x & <- & Hx). apply IH in Hx. cbn [length]. unfold trues in *. cbn [filter length].
        intuition.
      * intros [H1 H2]. destruct v as [|b v]; [discriminate|]. cbn [length] in H1.
        destruct b; [unfold trues in H2; cbn [filter length] in H2; discriminate|].
        exists v. split; auto. apply IH. split; [lia|exact H2].
    + rewrite in_app_iff, !in_map_iff. split.
      * intros [(x & <- & Hx)|(x & <- & Hx)]; apply IH in Hx; cbn [length]; unfold trues in *;
        cbn [filter length]; lia.
      * intros [H1 H2]. destruct v as [|b v]; [discriminate|]. cbn [length] in H1.
        destruct b; [left|right]; exists v; (split; [auto|]); apply IH;
        unfold trues in *; cbn [filter length] in H2; lia.
Qed.

Lemma vecs_NoDup n : forall k, NoDup (vecs n k).
Proof.
  induction n as [|n IH]; intros [|k]; cbn [vecs].
  - constructor; [tauto|constructor].
  - constructor.
  - apply NoDup_map_inj; auto. congruence.
  - apply NoDup_app.
    + apply NoDup_map_inj; auto. congruence.
    + apply NoDup_map_inj; auto. congruence.
    + intros v H1 H2. apply in_map_iff in H1, H2.
      destruct H1 as (? & <- & _), H2 as (? & E & _). discriminate.
Qed.

Lemma vecs_length n : forall k, length (vecs n k) = binom n k.
Proof.
  induction n as [|n IH]; intros [|k]; cbn [vecs binom]; auto.
  - rewrite map_length, IH. apply binom_0.
  - rewrite app_length, !map_length, !IH. reflexivity.
Qed.

(** ** prev_permutation walks through [vecs] *)

Definition top (n k : nat) : list bool := repeat true k ++ repeat false (n - k).
Definition bot (n k : nat) : list bool := repeat false (n - k) ++ repeat true k.

Lemma vecs_head n : forall k, k <= n -> exists l, vecs n k = top n k :: l.
Proof.
  induction n as [|n IH]; intros k Hk.
  - assert (k = 0) by lia. subst. exists []. reflexivity.
  - destruct k as [|k]; cbn [vecs].
    + destruct (IH 0) as [l E]; [lia|]. rewrite E. exists (map (cons false) l).
      cbn [map]. unfold top. cbn [repeat app]. rewrite !Nat.sub_0_r. reflexivity.
    + destruct (IH k) as [l E]; [lia|]. rewrite E.
      exists (map (cons true) l ++ map (cons false) (vecs n (S k))).
      cbn [map app]. unfold top. cbn [repeat app]. reflexivity.
Qed.

Lemma vecs_empty n k : n < k -> vecs n k = [].
Proof.
  intros H. destruct (vecs n k) as [|v l] eqn:E; auto.
  assert (In v (vecs n k)) by (rewrite E; left; reflexivity).
  apply vecs_In in H0. destruct H0 as [H1 H2].
  assert (trues v <= length v); [|lia]. unfold trues. clear.
  induction v as [|[] v IH]; cbn [filter length]; lia.
Qed.

Lemma repeat_snoc {A} (x : A) n : repeat x n ++ [x] = x :: repeat x n.
Proof. symmetry. apply repeat_cons. Qed.

Lemma vecs_last n : forall k, k <= n -> exists l, vecs n k = l ++ [bot n k].
Proof.
  induction n as [|n IH]; intros k Hk.
  - assert (k = 0) by lia. subst. exists []. reflexivity.
  - destruct k as [|k]; cbn [vecs].
    + destruct (IH 0) as [l E]; [lia|]. rewrite E. exists (map (cons false) l).
      rewrite map_app. cbn [map]. unfold bot. cbn [repeat app]. rewrite !Nat.sub_0_r.
      cbn [repeat app]. reflexivity.
    + destruct (Nat.eq_dec k n) as [->|Hn].
      * rewrite (vecs_empty n (S n)) by lia. cbn [map]. rewrite app_nil_r.
        destruct (IH n) as [l E]; [lia|]. rewrite E. exists (map (cons true) l).
        rewrite map_app. cbn [map]. unfold bot. rewrite !Nat.sub_diag. reflexivity.
      * destruct (IH (S k)) as [l E]; [lia|]. rewrite E.
        exists (map (cons true) (vecs n k) ++ map (cons false) l).
        rewrite map_app, app_assoc. cbn [map]. unfold bot.
        replace (S n - S k) with (S (n - S k)) by lia. reflexivity.
Qed.

(** consecutive elements are predecessor permutations, the last has none *)
Fixpoint walk (l : list (list bool)) : Prop :=
  match l with
  | [] => True
  | v :: r => match r with
              | [] => prev_permutation v = None
              | w :: _ => prev_permutation v = Some w
              end /\ walk r
  end.

Lemma prev_repeat_true k : prev_permutation (repeat true k) = None.
Proof.
  induction k as [|k IH]; cbn [repeat prev_permutation]; [reflexivity|].
  rewrite IH. destruct k; reflexivity.
Qed.

Lemma prev_bot m k : prev_permutation (repeat false m ++ repeat true k) = None.
Proof.
  induction m as [|m IH]; cbn [repeat app prev_permutation].
  - apply prev_repeat_true.
  - rewrite IH. destruct m; cbn [repeat app]; [|reflexivity]. destruct k; reflexivity.
Qed.

Lemma swap_last_true k : swap_last_false (repeat true k) = None.
Proof. induction k as [|k IH]; cbn [repeat swap_last_false]; [reflexivity|]. rewrite IH. reflexivity. Qed.

Lemma swap_last_bot m k :
  swap_last_false (repeat false (S m) ++ repeat true k) =
  Some (repeat false m ++ repeat true (S k)).
Proof.
  induction m as [|m IH].
  - cbn [repeat app swap_last_false]. rewrite swap_last_true. reflexivity.
  - change (repeat false (S (S m)) ++ repeat true k) with
      (false :: (repeat false (S m) ++ repeat true k)).
    cbn [swap_last_false]. rewrite IH. reflexivity.
Qed.

Lemma rev_repeat {A} (x : A) n : rev (repeat x n) = repeat x n.
Proof. induction n as [|n IH]; cbn [repeat rev]; auto. rewrite IH. apply repeat_snoc. Qed.

(** crossing from the "true" half to the "false" half *)
Lemma prev_cross n k : S k <= n ->
  prev_permutation (true :: bot n k) = Some (false :: top n (S k)).
Proof.
  intros H. unfold bot, top. cbn [prev_permutation]. rewrite prev_bot.
  replace (n - k) with (S (n - S k)) by lia.
  assert (E := swap_last_bot (n - S k) k).
  change (repeat false (S (n - S k)) ++ repeat true k) with
    (false :: (repeat false (n - S k) ++ repeat true k)) in *.
  rewrite E. rewrite rev_app_distr, !rev_repeat. reflexivity.
Qed.

Lemma prev_cons b v w : prev_permutation v = Some w -> prev_permutation (b :: v) = Some (b :: w).
Proof. intros H. cbn [prev_permutation]. rewrite H. reflexivity. Qed.

Lemma walk_map_false l : walk l -> (forall v, In v l -> prev_permutation v = None -> prev_permutation (false :: v) = None) ->
  walk (map (cons false) l).
Proof.
  induction l as [|v [|w r] IH]; cbn [map walk]; auto.
  - intros [H _] Hf. split; auto. apply Hf; cbn [In]; auto.
  - intros [H1 H2] Hf. split; [apply prev_cons, H1|]. apply IH; auto.
    intros x Hx. apply Hf. cbn [In] in *; auto.
Qed.

Lemma prev_false_none v : prev_permutation v = None -> prev_permutation (false :: v) = None.
Proof. intros H. cbn [prev_permutation]. rewrite H. destruct v as [|[] v]; reflexivity. Qed.

Lemma walk_map_true_app l r v m : walk (r ++ [v]) ->
  l = r ++ [v] -> m <> [] -> prev_permutation (true :: v) = hd_error m ->
  walk m -> walk (map (cons true) l ++ m).
Proof.
  intros Hw -> Hm Hc Hwm. induction r as [|x r IH].
  - cbn [app map]. destruct m as [|w q]; [congruence|]. cbn [walk] in *. split; auto.
  - cbn [app map] in *. destruct (r ++ [v]) as [|y q] eqn:E.
    + destruct r; discriminate.
    + cbn [walk] in Hw. destruct Hw as [H1 H2].
      change (walk ((true :: x) :: (map (cons true) (y :: q) ++ m))).
      assert (G : walk (map (cons true) (y :: q) ++ m)) by (apply IH; exact H2).
      cbn [map app]. cbn [walk]. split; [apply prev_cons, H1|]. exact G.
Qed.

Lemma vecs_walk n : forall k, walk (vecs n k).
Proof.
  induction n as [|n IH]; intros [|k]; cbn [vecs].
  - cbn. auto.
  - exact I.
  - apply walk_map_false; auto using prev_false_none.
  - destruct (Nat.ltb_spec n k) as [H|H].
    { rewrite (vecs_empty n k), (vecs_empty n (S k)) by lia. exact I. }
    destruct (vecs_last n k H) as [r E].
    destruct (Nat.eq_dec k n) as [->|Hn].
    + rewrite (vecs_empty n (S n)) by lia. cbn [map]. rewrite app_nil_r.
      (* k = n: a single vector *)
      assert (L : length (vecs n n) = 1).
      { rewrite vecs_length. clear. induction n as [|n IH]; auto. cbn [binom]. rewrite IH.
        assert (G : binom n (S n) = 0); [|lia]. rewrite <- vecs_length, vecs_empty by lia. reflexivity. }
      rewrite E in *. rewrite app_length in L. cbn [length] in L. destruct r; [|cbn in L; lia].
      cbn [app map walk]. split; auto. unfold bot. rewrite Nat.sub_diag. cbn [repeat app].
      apply (prev_repeat_true (S n)).
    + destruct (vecs_head n (S k)) as [q Eq]; [lia|].
      eapply walk_map_true_app; [rewrite <- E; apply IH|exact E| | |].
      * rewrite Eq. discriminate.
      * rewrite prev_cross by lia. rewrite Eq. reflexivity.
      * apply walk_map_false; auto using prev_false_none.
Qed.

(** ** the loop *)

Lemma combs_loop_walk W l : forall v fuel, walk (v :: l) -> length (v :: l) <= fuel ->
  combs_loop fuel W v = Ok (map (fun u => comb_bits W u 0 0) (v :: l)).
Proof.
  induction l as [|w l IH]; intros v fuel Hw Hf; (destruct fuel as [|fuel]; [cbn in Hf; lia|]).
  - cbn [walk] in Hw. destruct Hw as [H _]. cbn [combs_loop]. rewrite H. reflexivity.
  - cbn [walk] in Hw. destruct Hw as [H Hw]. cbn [combs_loop]. rewrite H.
    rewrite IH; [reflexivity|exact Hw|cbn [length] in *; lia].
Qed.

Lemma tb_comb_bits W v : forall s temp i, s + length v <= W ->
  tb (comb_bits W v s temp) i = tb temp i || ((s <=? i) && nth (i - s) v false).
Proof.
  induction v as [|b v IH]; intros s temp i H; cbn [comb_bits length] in *.
  - destruct (i - s); cbn [nth]; rewrite andb_false_r, orb_false_r; reflexivity.
  - rewrite IH by lia.
    assert (E : tb (if b then N.lor temp (bs_shl W 1 s) else temp) i =
                tb temp i || ((i =? s) && b)).
    { destruct b; [|rewrite andb_false_r, orb_false_r; reflexivity].
      rewrite tb_or, tb_bs_shl, andb_true_r. f_equal.
      destruct (Nat.ltb_spec i W), (Nat.leb_spec s i), (Nat.eqb_spec i s); cbn [andb]; try lia; auto.
      - subst. rewrite Nat.sub_diag. reflexivity.
      - destruct (i - s) eqn:D; [lia|]. apply tb_1_S. }
    rewrite E. destruct (Nat.eqb_spec i s).
    + subst. rewrite Nat.leb_refl, Nat.sub_diag. cbn [nth andb].
      destruct (Nat.leb_spec (S s) s); [lia|]. cbn [andb]. rewrite orb_false_r. reflexivity.
    + cbn [andb]. rewrite orb_false_r. f_equal.
      destruct (Nat.leb_spec (S s) i), (Nat.leb_spec s i); try lia; cbn [andb]; auto.
      destruct (i - s) eqn:D; [lia|]. cbn [nth]. f_equal. lia.
Qed.

Lemma tb_comb W v i : length v <= W -> tb (comb_bits W v 0 0) i = nth i v false.
Proof.
  intros H. rewrite tb_comb_bits by lia. rewrite tb_0, Nat.sub_0_r. reflexivity.
Qed.

Definition vec_of (n : nat) (x : N) : list bool := map (tb x) (seq 0 n).

Lemma comb_vec_of W n x : n <= W -> wf n x -> comb_bits W (vec_of n x) 0 0 = x.
Proof.
  intros H Hx. apply tb_ext. intros i. unfold vec_of.
  rewrite tb_comb by (rewrite map_length, seq_length; auto).
  destruct (Nat.ltb_spec i n).
  - rewrite (nth_indep _ false (tb x 0)) by (rewrite map_length, seq_length; auto).
    rewrite map_nth, seq_nth by auto. reflexivity.
  - rewrite nth_overflow by (rewrite map_length, seq_length; auto). symmetry. auto.
Qed.

Lemma trues_vec_of n x : trues (vec_of n x) = length (positions n x).
Proof.
  unfold trues, vec_of, positions. generalize (seq 0 n) as l.
  induction l as [|a l IH]; cbn [map filter length]; auto.
  destruct (tb x a); cbn [length]; auto.
Qed.

Lemma vec_of_comb W n v : length v = n -> n <= W -> vec_of n (comb_bits W v 0 0) = v.
Proof.
  intros Hl Hn. apply nth_ext with (d := false) (d' := false).
  - unfold vec_of. rewrite map_length, seq_length. auto.
  - intros i Hi. unfold vec_of in *. rewrite map_length, seq_length in Hi.
    rewrite (nth_indep _ false (tb (comb_bits W v 0 0) 0)) by (rewrite map_length, seq_length; auto).
    rewrite map_nth, seq_nth by auto. apply tb_comb. lia.
Qed.

Lemma wf_comb W v : length v <= W -> wf (length v) (comb_bits W v 0 0).
Proof. intros H i Hi. rewrite tb_comb by auto. apply nth_overflow. auto. Qed.

Definition combs (W n k : nat) : list N := map (fun u => comb_bits W u 0 0) (vecs n k).

Lemma combs_ok W n k fuel : k <= n -> length (vecs n k) <= fuel ->
  generate_combs fuel W n k = Ok (combs W n k).
Proof.
  intros H Hf. unfold generate_combs. destruct (Nat.ltb_spec n k); [lia|].
  fold (top n k). destruct (vecs_head n k H) as [l E]. unfold combs. rewrite E in *.
  apply combs_loop_walk; auto. rewrite <- E. apply vecs_walk.
Qed.

Lemma combs_In W n k x : n <= W -> In x (combs W n k) <-> wf n x /\ size_is x k.
Proof.
  intros HW. unfold combs. rewrite in_map_iff. split.
  - intros (v & <- & Hv). apply vecs_In in Hv. destruct Hv as [Hl Ht].
    assert (Hw : wf n (comb_bits W v 0 0)).
    { rewrite <- Hl. apply wf_comb. lia. }
    split; auto. apply size_is_count. rewrite (count_positions n) by auto.
    rewrite <- trues_vec_of, vec_of_comb by auto. exact Ht.
  - intros [Hw Hs]. exists (vec_of n x). split; [apply comb_vec_of; auto|].
    apply vecs_In. split; [unfold vec_of; rewrite map_length, seq_length; reflexivity|].
    rewrite trues_vec_of, <- count_positions by auto. apply size_is_count, Hs.
Qed.

Lemma combs_NoDup W n k : n <= W -> NoDup (combs W n k).
Proof.
  intros HW. apply NoDup_map_inj; [|apply vecs_NoDup].
  intros u v Hu Hv E. apply vecs_In in Hu, Hv. destruct Hu as [Hu _], Hv as [Hv _].
  rewrite <- (vec_of_comb W n u), <- (vec_of_comb W n v), E; auto.
Qed.

Lemma combs_length W n k : length (combs W n k) = binom n k.
Proof. unfold combs. rewrite map_length. apply vecs_length. Qed.

(** no result can be produced with less fuel than needed, and more fuel does
    not change it: the loop terminates *)
Lemma hilbert_spec W n na nb :
  Nat.even W = true -> n <= W / 2 -> na <= n -> nb <= n ->
  exists l, (exists f0, forall fuel, f0 <= fuel ->
              generate_hilbert_space fuel W n na nb = Ok l) /\
    NoDup l /\ length l = binom n na * binom n nb /\
    forall t, In t l <-> in_space W n t /\ size_is (alpha W t) na /\ size_is (beta W t) nb.
Proof.
  intros HW Hn Ha Hb.
  assert (HW2 : W / 2 + W / 2 = W).
  { apply Nat.even_spec in HW. destruct HW as [m ->]. rewrite (Nat.mul_comm 2), Nat.div_mul; lia. }
  assert (Hle : n <= W) by lia.
  set (f := fun p => N.lor (fst p) (bs_shl W (snd p) (W / 2))).
  exists (map f (list_prod (combs W n na) (combs W n nb))).
  assert (A : forall a b, wf n a -> wf n b -> alpha W (f (a, b)) = a /\ beta W (f (a, b)) = b).
  { intros a b wa wb. unfold f, alpha, beta. cbn [fst snd]. split; apply tb_ext; intros i.
    - rewrite tb_mod, tb_or, tb_bs_shl. destruct (Nat.ltb_spec i (W/2)); cbn [andb].
      + destruct (Nat.leb_spec (W/2) i); [lia|]. rewrite andb_false_r, orb_false_r. reflexivity.
      + symmetry. apply wa. lia.
    - rewrite tb_div, tb_or, tb_bs_shl. rewrite (wa (i + W/2)) by lia. cbn [orb].
      destruct (Nat.leb_spec (W/2) (i + W/2)); [|lia]. cbn [andb].
      replace (i + W/2 - W/2) with i by lia.
      destruct (Nat.ltb_spec (i + W/2) W); auto. cbn [andb]. symmetry. apply wb. lia. }
  split; [|split; [|split]].
  - exists (length (vecs n na) + length (vecs n nb)). intros fuel Hf.
    unfold generate_hilbert_space. rewrite !combs_ok by lia. reflexivity.
  - apply NoDup_map_inj; [|apply NoDup_list_prod; apply combs_NoDup; auto].
    intros [a b] [a' b'] H H' E. apply in_prod_iff in H, H'.
    rewrite !combs_In in H, H' by auto.
    destruct (A a b) as [A1 A2]; try tauto. destruct (A a' b') as [B1 B2]; try tauto.
    rewrite E in A1, A2. congruence.
  - rewrite map_length, prod_length, !combs_length. reflexivity.
  - intros t. rewrite in_map_iff. split.
    + intros ([a b] & <- & H). apply in_prod_iff in H. rewrite !combs_In in H by auto.
      destruct H as [[wa sa] [wb sb]]. destruct (A a b wa wb) as [A1 A2].
      unfold in_space. rewrite A1, A2. auto.
    + intros [[wa wb] [sa sb]]. exists (alpha W t, beta W t). split.
      * unfold f. cbn [fst snd]. apply tb_ext. intros i. rewrite tb_or, tb_bs_shl.
        unfold alpha, beta. rewrite tb_mod, tb_div.
        destruct (Nat.ltb_spec i (W/2)), (Nat.ltb_spec i W), (Nat.leb_spec (W/2) i); try lia;
        cbn [andb orb].
        -- rewrite orb_false_r. reflexivity.
        -- f_equal. lia.
        -- symmetry. specialize (wb (i - W/2)). unfold beta in wb. rewrite tb_div in wb.
           replace (i - W/2 + W/2) with i in wb by lia. apply wb. lia.
      * apply in_prod_iff. rewrite !combs_In by auto. auto.
Qed.

(** ** residues *)

Lemma ordered_pairs_In (l : list nat) i j : In (i, j) (ordered_pairs l) <-> before l i j.
Proof.
  unfold ordered_pairs, before. rewrite in_flat_map. split.
  - intros ([x r] & H & Hj). apply in_map_iff in Hj. cbn [fst snd] in Hj.
    destruct Hj as (y & E & Hy). injection E as -> ->. eauto.
  - intros (r & H & Hj). exists (i, r). split; auto. apply in_map_iff. exists j. auto.
Qed.

Lemma ordered_pairs_NoDup (l : list nat) : NoDup l -> NoDup (ordered_pairs l).
Proof.
  intros Nl. unfold ordered_pairs. apply NoDup_flat_map; [apply tails_NoDup; auto| |].
  - intros [i r] H. apply NoDup_map_inj; [congruence|]. eapply tails_NoDup_snd; eauto.
  - intros [i r] [i' r'] x H H' Hx Hx'. apply in_map_iff in Hx, Hx'. cbn [fst snd] in *.
    destruct Hx as (? & <- & _), Hx' as (? & E & _).
    assert (i = i') by congruence. subst. f_equal. eapply tails_inj; eauto.
Qed.

Lemma ordered_pairs_length {A} (l : list A) : length (ordered_pairs l) = binom (length l) 2.
Proof.
  unfold ordered_pairs. rewrite flat_map_length_sum.
  rewrite (map_ext _ (fun ir => length (snd ir))); [apply pairs_count|].
  intros. apply map_length.
Qed.

Lemma wf_one H i : i < H -> wf H (bs_shl H 1 i). Proof. intros _. apply wf_bs_shl. Qed.

Lemma tb_one_shl H i k : i < H -> tb (bs_shl H 1 i) k = (k =? i).
Proof.
  intros Hi. rewrite tb_bs_shl.
  destruct (Nat.ltb_spec k H), (Nat.leb_spec i k), (Nat.eqb_spec k i); cbn [andb]; try lia; auto.
  - subst. rewrite Nat.sub_diag. reflexivity.
  - destruct (k - i) eqn:E; [lia|]. apply tb_1_S.
Qed.

Lemma tb_clear_two H s i j k : i < H -> j < H -> wf H s ->
  tb (clear_two H s (i, j)) k = tb s k && negb ((k =? i) || (k =? j)).
Proof.
  intros Hi Hj Hs. unfold clear_two. cbn [fst snd].
  rewrite tb_and, tb_not by (apply wf_or; apply wf_bs_shl).
  rewrite tb_or, !tb_one_shl by auto.
  destruct (Nat.ltb_spec k H); auto. rewrite Hs by auto. reflexivity.
Qed.

Lemma wf_clear_two H s ij : wf H s -> wf H (clear_two H s ij).
Proof. intros Hs. unfold clear_two. apply wf_and. auto. Qed.

(** [t] is [s] with two electrons removed *)

Lemma clear_two_removed H s ij : wf H s -> before (positions H s) (fst ij) (snd ij) ->
  two_removed s (clear_two H s ij).
Proof.
  intros Hs Hb. destruct ij as [i j]. cbn [fst snd] in Hb.
  pose proof (before_irrefl _ _ _ (positions_NoDup H s) Hb) as Hij.
  apply before_In in Hb. rewrite !positions_In in Hb. destruct Hb as [[Hi Ti] [Hj Tj]].
  split.
  - assert (T : forall k, tb (N.ldiff s (clear_two H s (i, j))) k = (k =? i) || (k =? j)).
    { intros k. rewrite tb_ldiff, tb_clear_two by auto.
      destruct (Nat.eqb_spec k i), (Nat.eqb_spec k j); subst; rewrite ?Ti, ?Tj; cbn; auto;
      destruct (tb s k); reflexivity. }
    apply size_is_2. destruct (Nat.lt_total i j) as [L|[L|L]]; [|lia|].
    + exists i, j. auto.
    + exists j, i. split; auto. intros k. rewrite T. apply orb_comm.
  - apply tb_ext. intros k. rewrite tb_0, tb_ldiff, tb_clear_two by auto.
    destruct (tb s k); cbn; auto. rewrite andb_false_r. reflexivity.
Qed.

Lemma two_removed_clear H s t : wf H s -> two_removed s t ->
  exists ij, before (positions H s) (fst ij) (snd ij) /\ t = clear_two H s ij.
Proof.
  intros Hs [H2 H0]. apply size_is_2 in H2. destruct H2 as (i & j & Hij & T).
  assert (Ti := T i). assert (Tj := T j).
  rewrite tb_ldiff, Nat.eqb_refl in Ti, Tj. rewrite orb_true_r in Tj. cbn [orb] in Ti.
  apply andb_prop in Ti, Tj. destruct Ti as [Ti _], Tj as [Tj _].
  assert (Pi : In i (positions H s)) by (apply positions_In'; auto).
  assert (Pj : In j (positions H s)) by (apply positions_In'; auto).
  exists (i, j). cbn [fst snd]. split.
  - unfold before. apply sorted_pairs_In; auto. apply positions_sorted.
  - apply positions_In in Pi, Pj. apply tb_ext. intros k.
    rewrite tb_clear_two by tauto. rewrite <- T, tb_ldiff.
    assert (X : tb (N.ldiff t s) k = false) by (rewrite H0; apply tb_0).
    rewrite tb_ldiff in X. destruct (tb s k), (tb t k); auto; discriminate.
Qed.

Lemma clear_two_inj H s ij ij' : wf H s ->
  before (positions H s) (fst ij) (snd ij) -> before (positions H s) (fst ij') (snd ij') ->
  clear_two H s ij = clear_two H s ij' -> ij = ij'.
Proof.
  intros Hs Hb Hb' E. destruct ij as [i j], ij' as [i' j']. cbn [fst snd] in *.
  unfold before in *. rewrite sorted_pairs_In in Hb, Hb' by apply positions_sorted.
  rewrite !positions_In in Hb, Hb'. destruct Hb as ([Hi Ti] & [Hj Tj] & L).
  destruct Hb' as ([Hi' Ti'] & [Hj' Tj'] & L').
  assert (P : i = i' /\ j = j'); [|destruct P; congruence].
  apply pair_set_eq; auto. intros k.
  assert (X : tb (clear_two H s (i, j)) k = tb (clear_two H s (i', j')) k) by congruence.
  rewrite !tb_clear_two in X by auto.
  destruct (tb s k) eqn:Es; cbn [andb] in X.
  - destruct ((k =? i) || (k =? j)), ((k =? i') || (k =? j')); auto; discriminate.
  - destruct (Nat.eqb_spec k i), (Nat.eqb_spec k j), (Nat.eqb_spec k i'), (Nat.eqb_spec k j');
    subst; auto; congruence.
Qed.

Lemma binom_2_add n m : binom n 2 + (binom m 2 + n * m) = binom (n + m) 2.
Proof.
  induction n as [|n IH]; [cbn [binom plus]; lia|].
  rewrite Nat.add_succ_l, !binom_2_S. lia.
Qed.

(** residue specification: two electrons removed from the determinant *)
Lemma residues_spec W s res0 : spin_width W -> wf W s ->
  exists l, generate_residues W s res0 = Ok (res0 ++ l) /\ NoDup l /\
    length l = binom (bs_count (alpha W s) + bs_count (beta W s)) 2 /\
    forall t, In t l <-> two_removed s t.
Proof.
  intros HW Hs. pose proof (spin_width_half W HW) as HH.
  set (H := W / 2) in *. set (sa := alpha W s). set (sb := beta W s).
  assert (Wa : wf H sa) by apply wf_alpha. assert (Wb : wf H sb) by (apply wf_beta; auto).
  unfold generate_residues. rewrite <- alpha_lo, <- beta_hi by auto. fold sa sb H.
  rewrite !bits_to_indices_ok by auto. cbn [bind].
  rewrite (mapM_ok _ (fun ij => jn W (clear_two H sa ij) sb)).
  2:{ intros ij _. apply join_spin_ok; auto. apply wf_clear_two; auto. }
  cbn [bind]. rewrite (mapM_ok _ (fun ij => jn W sa (clear_two H sb ij))).
  2:{ intros ij _. apply join_spin_ok; auto. apply wf_clear_two; auto. }
  cbn [bind].
  set (clr := fun ij => N.land s (bs_not W (jn W (bs_shl H 1 (fst ij)) (bs_shl H 1 (snd ij))))).
  rewrite (mapM_ok _ clr).
  2:{ intros ij _. rewrite join_spin_ok by (auto; apply wf_bs_shl). reflexivity. }
  cbn [bind].
  set (L1 := map (fun ij => jn W (clear_two H sa ij) sb) (ordered_pairs (positions H sa))).
  set (L2 := map (fun ij => jn W sa (clear_two H sb ij)) (ordered_pairs (positions H sb))).
  set (L3 := map clr (list_prod (positions H sa) (positions H sb))).
  exists (L1 ++ L2 ++ L3). split; [reflexivity|].
  (* bits of the parts *)
  assert (Ta : forall k, tb sa k = (k <? H) && tb s k) by (intros; unfold sa, alpha; apply tb_mod).
  assert (Tb : forall k, tb sb k = tb s (k + H)) by (intros; unfold sb, beta; apply tb_div).
  assert (Tj : forall a b k, wf H a -> wf H b -> tb (jn W a b) k = if k <? H then tb a k else tb b (k - H)).
  { intros a b k ha hb. unfold jn. fold H. rewrite tb_or, tb_bs_shl.
    destruct (Nat.ltb_spec k H), (Nat.leb_spec H k), (Nat.ltb_spec k W); try lia; cbn [andb].
    - apply orb_false_r.
    - rewrite ha by lia. reflexivity.
    - rewrite ha by lia. symmetry. cbn [orb]. apply hb. lia. }
  assert (Tc : forall i j k, i < H -> j < H ->
    tb (clr (i, j)) k = tb s k && negb ((k =? i) || (k =? j + H))).
  { intros i j k Hi Hj. unfold clr. cbn [fst snd].
    rewrite tb_and, tb_not by (apply wf_jn; auto; apply wf_bs_shl).
    rewrite Tj by apply wf_bs_shl. rewrite !tb_one_shl by auto.
    destruct (Nat.ltb_spec k W); [|rewrite Hs by auto; reflexivity]. cbn [andb]. f_equal. f_equal.
    destruct (Nat.ltb_spec k H), (Nat.eqb_spec k i), (Nat.eqb_spec (k - H) j), (Nat.eqb_spec k (j + H));
      cbn [orb]; auto; lia. }
  assert (D1 : forall t, In t L1 <-> exists ij, before (positions H sa) (fst ij) (snd ij) /\
                  t = jn W (clear_two H sa ij) sb).
  { intros t. unfold L1. rewrite in_map_iff. split.
    - intros ([i j] & <- & Hi). apply ordered_pairs_In in Hi. exists (i, j). auto.
    - intros ([i j] & Hi & ->). exists (i, j). split; auto. apply ordered_pairs_In. exact Hi. }
  assert (D2 : forall t, In t L2 <-> exists ij, before (positions H sb) (fst ij) (snd ij) /\
                  t = jn W sa (clear_two H sb ij)).
  { intros t. unfold L2. rewrite in_map_iff. split.
    - intros ([i j] & <- & Hi). apply ordered_pairs_In in Hi. exists (i, j). auto.
    - intros ([i j] & Hi & ->). exists (i, j). split; auto. apply ordered_pairs_In. exact Hi. }
  assert (D3 : forall t, In t L3 <-> exists i j, In i (positions H sa) /\ In j (positions H sb) /\
                  t = clr (i, j)).
  { intros t. unfold L3. rewrite in_map_iff. split.
    - intros ([i j] & <- & Hi). apply in_prod_iff in Hi. exists i, j. tauto.
    - intros (i & j & Hi & Hj & ->). exists (i, j). split; auto. apply in_prod_iff. auto. }
  (* the alpha part tells the lists apart *)
  assert (A1 : forall t, In t L1 -> two_removed sa (alpha W t) /\ beta W t = sb).
  { intros t Ht. apply D1 in Ht. destruct Ht as (ij & Hb & ->).
    rewrite alpha_jn, beta_jn by (auto; apply wf_clear_two; auto). split; auto.
    apply clear_two_removed; auto. }
  assert (A2 : forall t, In t L2 -> alpha W t = sa /\ two_removed sb (beta W t)).
  { intros t Ht. apply D2 in Ht. destruct Ht as (ij & Hb & ->).
    rewrite alpha_jn, beta_jn by (auto; apply wf_clear_two; auto). split; auto.
    apply clear_two_removed; auto. }
  assert (A3 : forall t, In t L3 -> size_is (N.ldiff sa (alpha W t)) 1).
  { intros t Ht. apply D3 in Ht. destruct Ht as (i & j & Hi & Hj & ->).
    apply positions_In in Hi, Hj. destruct Hi as [Hi Ti], Hj as [Hj Tj'].
    apply size_is_1. exists i. intros k. rewrite tb_ldiff. unfold alpha at 1. rewrite tb_mod, Tc by auto.
    fold H. rewrite Ta in *. destruct (Nat.ltb_spec k H); cbn [andb].
    - destruct (Nat.eqb_spec k i); cbn [orb negb].
      + subst k. destruct (Nat.ltb_spec i H); [|lia]. cbn [andb] in Ti. rewrite Ti. reflexivity.
      + destruct (Nat.eqb_spec k (j + H)); [lia|]. destruct (tb s k); reflexivity.
    - destruct (Nat.eqb_spec k i); [lia|reflexivity]. }
  assert (NR : forall x, ~ two_removed x x).
  { intros x [X _]. rewrite N.ldiff_diag in X. apply size_is_count in X. discriminate. }
  split; [|split].
  - apply NoDup_app; [|apply NoDup_app|].
    + apply NoDup_map_inj; [|apply ordered_pairs_NoDup, positions_NoDup].
      intros [i j] [i' j'] Hx Hy E. apply ordered_pairs_In in Hx, Hy.
      apply jn_inj in E; auto; try (apply wf_clear_two; auto). destruct E as [E _].
      apply (clear_two_inj H sa); auto.
    + apply NoDup_map_inj; [|apply ordered_pairs_NoDup, positions_NoDup].
      intros [i j] [i' j'] Hx Hy E. apply ordered_pairs_In in Hx, Hy.
      apply jn_inj in E; auto; try (apply wf_clear_two; auto). destruct E as [_ E].
      apply (clear_two_inj H sb); auto.
    + apply NoDup_map_inj; [|apply NoDup_list_prod; apply positions_NoDup].
      intros [i j] [i' j'] Hx Hy E. apply in_prod_iff in Hx, Hy.
      rewrite !positions_In in Hx, Hy.
      destruct Hx as [[Hi Ti] [Hj Tj']], Hy as [[Hi' Ti'] [Hj' Tj'']].
      assert (Xi := f_equal (fun z => tb z i) E). assert (Xj := f_equal (fun z => tb z (j + H)) E).
      cbn beta in Xi, Xj. rewrite !Tc in Xi, Xj by auto.
      rewrite Ta in Ti. rewrite Tb in Tj'. destruct (Nat.ltb_spec i H); [|lia]. cbn [andb] in Ti.
      rewrite Ti, Nat.eqb_refl in Xi. rewrite Tj', Nat.eqb_refl, orb_true_r in Xj.
      cbn [andb orb negb] in Xi, Xj.
      destruct (Nat.eqb_spec i i'), (Nat.eqb_spec i (j' + H)), (Nat.eqb_spec (j + H) i'),
       (Nat.eqb_spec (j + H) (j' + H)); cbn [orb negb] in *; try discriminate; try lia; f_equal; lia.
    + intros t H2 H3. apply A2 in H2. apply A3 in H3. destruct H2 as [E _]. rewrite E in H3.
      rewrite N.ldiff_diag in H3. apply size_is_count in H3. discriminate.
    + intros t H1 H2. apply A1 in H1. destruct H1 as [R _]. apply in_app_or in H2.
      destruct H2 as [H2|H2].
      * apply A2 in H2. destruct H2 as [E _]. rewrite E in R. apply (NR _ R).
      * apply A3 in H2. destruct R as [R _]. pose proof (size_is_fun _ _ _ R H2). discriminate.
  - rewrite !app_length. unfold L1, L2, L3. rewrite !map_length, prod_length, !ordered_pairs_length.
    rewrite (count_positions H sa), (count_positions H sb) by auto.
    apply binom_2_add.
  - intros t. rewrite !in_app_iff. split.
    + intros [Ht|[Ht|Ht]].
      * pose proof (A1 t Ht) as [[R1 R2] Eb]. apply D1 in Ht. destruct Ht as (ij & Hb & ->).
        rewrite alpha_jn in R1, R2 by (auto; apply wf_clear_two; auto).
        assert (X : forall k, tb (N.ldiff s (jn W (clear_two H sa ij) sb)) k = tb (N.ldiff sa (clear_two H sa ij)) k).
        { intros k. rewrite !tb_ldiff, Tj by (auto; apply wf_clear_two; auto). rewrite Ta.
          destruct (Nat.ltb_spec k H); auto. cbn [andb]. rewrite Tb.
          replace (k - H + H) with k by lia. destruct (tb s k); reflexivity. }
        apply tb_ext in X. split; [rewrite X; exact R1|].
        apply tb_ext. intros k. rewrite tb_0, tb_ldiff, Tj by (auto; apply wf_clear_two; auto).
        destruct (Nat.ltb_spec k H).
        -- assert (Y : tb (N.ldiff (clear_two H sa ij) sa) k = false) by (rewrite R2; apply tb_0).
           rewrite tb_ldiff, Ta in Y. destruct (Nat.ltb_spec k H); [exact Y|lia].
        -- rewrite Tb. replace (k - H + H) with k by lia. destruct (tb s k); reflexivity.
      * pose proof (A2 t Ht) as [Ea [R1 R2]]. apply D2 in Ht. destruct Ht as (ij & Hb & ->).
        rewrite beta_jn in R1, R2 by (auto; apply wf_clear_two; auto).
        apply size_is_2 in R1. destruct R1 as (i & j & Hij & R1).
        assert (X : forall k, tb (N.ldiff s (jn W sa (clear_two H sb ij))) k = (k =? i + H) || (k =? j + H)).
        { intros k. rewrite tb_ldiff, Tj by (auto; apply wf_clear_two; auto). rewrite Ta.
          destruct (Nat.ltb_spec k H).
          - cbn [andb]. destruct (Nat.eqb_spec k (i + H)), (Nat.eqb_spec k (j + H)); try lia.
            destruct (tb s k); reflexivity.
          - specialize (R1 (k - H)). rewrite tb_ldiff, Tb in R1.
            replace (k - H + H) with k in R1 by lia. rewrite R1.
            destruct (Nat.eqb_spec k (i + H)), (Nat.eqb_spec k (j + H)), (Nat.eqb_spec (k - H) i),
             (Nat.eqb_spec (k - H) j); auto; lia. }
        split; [apply size_is_2; exists (i + H), (j + H); split; [lia|auto]|].
        apply tb_ext. intros k. rewrite tb_0, tb_ldiff, Tj by (auto; apply wf_clear_two; auto).
        destruct (Nat.ltb_spec k H).
        -- rewrite Ta. destruct (Nat.ltb_spec k H); [|lia]. destruct (tb s k); reflexivity.
        -- assert (Y : tb (N.ldiff (clear_two H sb ij) sb) (k - H) = false) by (rewrite R2; apply tb_0).
           rewrite tb_ldiff, Tb in Y. replace (k - H + H) with k in Y by lia. exact Y.
      * apply D3 in Ht. destruct Ht as (i & j & Hi & Hj & ->). apply positions_In in Hi, Hj.
        destruct Hi as [Hi Ti], Hj as [Hj Tj']. rewrite Ta in Ti. rewrite Tb in Tj'.
        destruct (Nat.ltb_spec i H); [|lia]. cbn [andb] in Ti. split.
        -- apply size_is_2. exists i, (j + H). split; [lia|]. intros k.
           rewrite tb_ldiff, Tc by auto.
           destruct (Nat.eqb_spec k i), (Nat.eqb_spec k (j + H)); try subst k; rewrite ?Ti, ?Tj'; auto;
           cbn [orb negb andb]; destruct (tb s k); reflexivity.
        -- apply tb_ext. intros k. rewrite tb_0, tb_ldiff, Tc by auto.
           destruct (tb s k); cbn [andb negb]; auto. apply andb_false_r.
    + intros [R1 R2].
      assert (Sub : forall k, tb t k = true -> tb s k = true).
      { intros k Hk. assert (Y : tb (N.ldiff t s) k = false) by (rewrite R2; apply tb_0).
        rewrite tb_ldiff, Hk in Y. destruct (tb s k); auto. }
      assert (Wt : wf W t).
      { intros k Hk. destruct (tb t k) eqn:E; auto. apply Sub in E. rewrite Hs in E; auto. }
      apply size_is_2 in R1. destruct R1 as (p & q & Hpq & T).
      assert (Tp := T p). assert (Tq := T q). rewrite tb_ldiff, Nat.eqb_refl in Tp, Tq.
      rewrite orb_true_r in Tq. cbn [orb] in Tp. apply andb_prop in Tp, Tq.
      destruct Tp as [Tp _], Tq as [Tq _].
      assert (Hq : q < W). { destruct (Nat.ltb_spec q W); auto. rewrite Hs in Tq by auto. discriminate. }
      assert (Tt : forall k, tb t k = tb s k && negb ((k =? p) || (k =? q))).
      { intros k. rewrite <- T, tb_ldiff. destruct (tb t k) eqn:E.
        - rewrite (Sub k E). reflexivity.
        - destruct (tb s k); reflexivity. }
      destruct (Nat.ltb_spec q H) as [Lq|Lq]; [left|destruct (Nat.ltb_spec p H) as [Lp|Lp]; [right; right|right; left]].
      * apply D1. exists (p, q). cbn [fst snd]. split.
        -- unfold before. apply sorted_pairs_In; [apply positions_sorted|].
           rewrite !positions_In, !Ta. destruct (Nat.ltb_spec p H), (Nat.ltb_spec q H); try lia.
           cbn [andb]. auto.
        -- apply tb_ext. intros k. rewrite Tj, Tt by (auto; apply wf_clear_two; auto).
           destruct (Nat.ltb_spec k H).
           ++ rewrite tb_clear_two, Ta by (auto; lia). destruct (Nat.ltb_spec k H); [reflexivity|lia].
           ++ rewrite Tb. replace (k - H + H) with k by lia.
              destruct (Nat.eqb_spec k p), (Nat.eqb_spec k q); try lia. apply andb_true_r.
      * apply D3. exists p, (q - H). rewrite !positions_In, Ta, Tb.
        replace (q - H + H) with q by lia. destruct (Nat.ltb_spec p H); [|lia]. cbn [andb].
        split; [auto|]. split; [split; [lia|auto]|].
        apply tb_ext. intros k. rewrite Tc, Tt by lia. replace (q - H + H) with q by lia. reflexivity.
      * apply D2. exists (p - H, q - H). cbn [fst snd]. split.
        -- unfold before. apply sorted_pairs_In; [apply positions_sorted|].
           rewrite !positions_In, !Tb. replace (q - H + H) with q by lia.
           replace (p - H + H) with p by lia. repeat split; auto; lia.
        -- apply tb_ext. intros k. rewrite Tj, Tt by (auto; apply wf_clear_two; auto).
           destruct (Nat.ltb_spec k H).
           ++ rewrite Ta. destruct (Nat.ltb_spec k H); [|lia].
              destruct (Nat.eqb_spec k p), (Nat.eqb_spec k q); try lia. apply andb_true_r.
           ++ rewrite tb_clear_two, Tb by (auto; lia). replace (k - H + H) with k by lia. f_equal. f_equal.
              destruct (Nat.eqb_spec k p), (Nat.eqb_spec k q), (Nat.eqb_spec (k - H) (p - H)),
               (Nat.eqb_spec (k - H) (q - H)); auto; lia.
Qed.

(** Proofs about sd_operations, part 2: active-space lists, spin-resolved
    generators, CIS/CISD, full CI, residues. *)
From Coq Require Import Sorting.Permutation Sorting.Sorted.
From Verif Require Import Base Bits BitsProofs SD Spec SDProofs.

(** ** pairs of list elements in list order *)

Definition before (l : list nat) (i j : nat) : Prop := exists r, In (i, r) (tails l) /\ In j r.

Lemma before_cons x l i j : before (x :: l) i j <-> (i = x /\ In j l) \/ before l i j.
Proof.
  unfold before. cbn [tails In]. split.
  - intros (r & [E|H] & Hj); [injection E as -> ->; auto|right; eauto].
  - intros [[-> H]|(r & H & Hj)]; eauto.
Qed.

Lemma before_In l i j : before l i j -> In i l /\ In j l.
Proof.
  induction l as [|x l IH]; [intros (r & [] & _)|]. rewrite before_cons. cbn [In].
  intros [[-> H]|H]; auto. destruct (IH H); auto.
Qed.

Lemma before_total l i j : In i l -> In j l -> i <> j -> before l i j \/ before l j i.
Proof.
  induction l as [|x l IH]; cbn [In]; [tauto|]. rewrite !before_cons.
  intros [->|Hi] [->|Hj] Hn; auto; [congruence|].
  destruct (IH Hi Hj Hn); auto.
Qed.

Lemma before_irrefl l i j : NoDup l -> before l i j -> i <> j.
Proof.
  induction 1 as [|x l Hx Hn IH]; [intros (r & [] & _)|]. rewrite before_cons.
  intros [[-> H]|H]; auto. intros ->. auto.
Qed.

Lemma before_asym l i j : NoDup l -> before l i j -> before l j i -> False.
Proof.
  induction 1 as [|x l Hx Hn IH]; [intros (r & [] & _)|]. rewrite !before_cons.
  intros [[-> H]|H] [[-> H']|H']; auto.
  - apply before_In in H'. tauto.
  - apply before_In in H. tauto.
Qed.

Lemma double_quads_before occ vir i a j b :
  In (i, a, j, b) (double_quads occ vir) <-> before occ i j /\ before vir a b.
Proof.
  unfold double_quads. rewrite in_flat_map. split.
  - intros ([a' ra] & Ha & H). apply in_flat_map in H.
    destruct H as ([i' ri] & Hi & H). apply in_flat_map in H.
    destruct H as (b' & Hb & H). apply in_map_iff in H. destruct H as (j' & E & Hj).
    cbn [fst snd] in *. injection E as -> -> -> ->. split; unfold before; eauto.
  - intros [(ri & Hi & Hj) (ra & Ha & Hb)].
    exists (a, ra). split; auto. apply in_flat_map. exists (i, ri). split; auto.
    apply in_flat_map. exists b. split; auto. apply in_map_iff. exists j. auto.
Qed.

Lemma tails_inj (l : list nat) i r r' :
  NoDup l -> In (i, r) (tails l) -> In (i, r') (tails l) -> r = r'.
Proof.
  intros Nl. induction Nl as [|o l Ho Nl IH]; cbn [tails In]; [tauto|].
  assert (F : forall r, In (i, r) (tails l) -> In i l).
  { intros q Hr. rewrite <- (tails_fst l). apply (in_map fst) in Hr. exact Hr. }
  intros [E|Hi] [E'|Hi'].
  - congruence.
  - injection E as -> ->. apply F in Hi'. tauto.
  - injection E' as -> ->. apply F in Hi. tauto.
  - auto.
Qed.

Lemma tails_NoDup_snd (l : list nat) i r : NoDup l -> In (i, r) (tails l) -> NoDup r.
Proof.
  intros Nl. induction Nl as [|o l Ho Nl IH]; cbn [tails In]; [tauto|].
  intros [E|H]; auto. congruence.
Qed.

Lemma double_quads_NoDup' occ vir : NoDup occ -> NoDup vir -> NoDup (double_quads occ vir).
Proof.
  intros No Nv. unfold double_quads. apply NoDup_flat_map; [apply tails_NoDup; auto| |].
  - intros [a ra] Ha. apply NoDup_flat_map; [apply tails_NoDup; auto| |].
    + intros [i ri] Hi. apply NoDup_flat_map.
      * eapply tails_NoDup_snd; [|exact Ha]; auto.
      * intros b _. apply NoDup_map_inj.
        -- intros x y _ _ E. congruence.
        -- eapply tails_NoDup_snd; [|exact Hi]; auto.
      * intros b c x _ _ H1 H2. apply in_map_iff in H1, H2. cbn [fst snd] in *.
        destruct H1 as (? & <- & _), H2 as (? & E & _). congruence.
    + intros [i ri] [i' ri'] x Hi Hi' H1 H2. apply in_flat_map in H1, H2.
      destruct H1 as (? & _ & H1), H2 as (? & _ & H2). apply in_map_iff in H1, H2.
      destruct H1 as (? & <- & _), H2 as (? & E & _). cbn [fst snd] in *.
      assert (i = i') by congruence. subst i'. f_equal. exact (tails_inj occ i ri ri' No Hi Hi').
  - intros [a ra] [a' ra'] x Ha Ha' H1 H2. apply in_flat_map in H1, H2.
    destruct H1 as (? & _ & H1), H2 as (? & _ & H2). apply in_flat_map in H1, H2.
    destruct H1 as (? & _ & H1), H2 as (? & _ & H2). apply in_map_iff in H1, H2.
    destruct H1 as (? & <- & _), H2 as (? & E & _). cbn [fst snd] in *.
    assert (a = a') by congruence. subst a'. f_equal. exact (tails_inj vir a ra ra' Nv Ha Ha').
Qed.

Lemma pair_set_eq' i j i' j' : i <> j -> i' <> j' ->
  (forall k, (k =? i) || (k =? j) = (k =? i') || (k =? j')) ->
  (i = i' /\ j = j') \/ (i = j' /\ j = i').
Proof.
  intros H H' E. assert (E1 := E i). assert (E2 := E j). assert (E3 := E i'). assert (E4 := E j').
  rewrite Nat.eqb_refl in E1, E2, E3, E4. rewrite orb_true_r in E2, E4. cbn [orb] in *.
  destruct (Nat.eqb_spec i i'), (Nat.eqb_spec i j'), (Nat.eqb_spec j i'), (Nat.eqb_spec j j');
   cbn [orb] in *; try discriminate; lia.
Qed.

(** ** generators over an orbital list [l] *)

Definition occ_in (s : N) (l : list nat) := filter (tb s) l.
Definition vir_in (s : N) (l : list nat) := filter (fun i => negb (tb s i)) l.

Lemma occ_in_In s l i : In i (occ_in s l) <-> In i l /\ tb s i = true.
Proof. apply filter_In. Qed.
Lemma vir_in_In s l i : In i (vir_in s l) <-> In i l /\ tb s i = false.
Proof. unfold vir_in. rewrite filter_In, negb_true_iff. tauto. Qed.


Lemma flip2_diff s i a k : i <> a -> (tb s k <> tb (flip2 s (i, a)) k) <-> k = i \/ k = a.
Proof.
  intros H. unfold flip2. cbn [fst snd]. rewrite !tb_flip.
  destruct (Nat.eqb_spec k i), (Nat.eqb_spec k a), (tb s k); cbn [xorb]; split; intros; try lia; congruence.
Qed.

Lemma flip4_diff s i a j b k :
  tb s i = true -> tb s j = true -> tb s a = false -> tb s b = false -> i <> j -> a <> b ->
  (tb s k <> tb (flip4 s (i, a, j, b)) k) <-> (k = i \/ k = j) \/ (k = a \/ k = b).
Proof.
  intros Hi Hj Ha Hb Hij Hab. assert (i <> a) by congruence. assert (i <> b) by congruence.
  assert (j <> a) by congruence. assert (j <> b) by congruence.
  unfold flip4. rewrite !tb_flip.
  destruct (Nat.eqb_spec k i), (Nat.eqb_spec k a), (Nat.eqb_spec k j), (Nat.eqb_spec k b),
   (tb s k); cbn [xorb]; split; intros; try lia; congruence.
Qed.

Lemma singles_list s t l :
  In t (singles_of s (occ_in s l) (vir_in s l)) <-> moves 1 s t /\ changes_in l s t.
Proof.
  rewrite singles_of_In, moves_1. split.
  - intros (i & a & Hi & Ha & ->). apply occ_in_In in Hi. apply vir_in_In in Ha.
    destruct Hi, Ha. assert (i <> a) by congruence. split; [exists i, a; auto|].
    intros k Hk. apply flip2_diff in Hk; auto. destruct Hk; subst; auto.
  - intros [(i & a & Hi & Ha & ->) Hc]. assert (i <> a) by congruence. exists i, a.
    rewrite occ_in_In, vir_in_In. repeat split; auto; apply Hc, flip2_diff; auto.
Qed.

Lemma flip4_swap_o s i a j b : flip4 s (i, a, j, b) = flip4 s (j, a, i, b).
Proof.
  unfold flip4. apply tb_ext. intros k. rewrite !tb_flip.
  destruct (tb s k), (k =? i), (k =? a), (k =? j), (k =? b); reflexivity.
Qed.
Lemma flip4_swap_v s i a j b : flip4 s (i, a, j, b) = flip4 s (i, b, j, a).
Proof.
  unfold flip4. apply tb_ext. intros k. rewrite !tb_flip.
  destruct (tb s k), (k =? i), (k =? a), (k =? j), (k =? b); reflexivity.
Qed.

Lemma doubles_list s t l : NoDup l ->
  In t (doubles_of s (occ_in s l) (vir_in s l)) <-> moves 2 s t /\ changes_in l s t.
Proof.
  intros Nl. assert (No : NoDup (occ_in s l)) by (apply NoDup_filter; auto).
  assert (Nv : NoDup (vir_in s l)) by (apply NoDup_filter; auto).
  unfold doubles_of. rewrite in_map_iff. split.
  - intros ([[[i a] j] b] & <- & H). apply double_quads_before in H. destruct H as [Ho Hv].
    pose proof (before_irrefl _ _ _ No Ho) as Hij. pose proof (before_irrefl _ _ _ Nv Hv) as Hab.
    apply before_In in Ho, Hv. rewrite occ_in_In in Ho. rewrite occ_in_In in Ho.
    rewrite vir_in_In in Hv. rewrite vir_in_In in Hv.
    destruct Ho as [[Hi Ti] [Hj Tj]], Hv as [[Ha Ta] [Hb Tb]]. split.
    + apply moves_2. destruct (Nat.lt_total i j) as [L|[L|L]]; [|lia|];
      (destruct (Nat.lt_total a b) as [M|[M|M]]; [|lia|]).
      * exists i, a, j, b. auto.
      * exists i, b, j, a. rewrite flip4_swap_v. auto.
      * exists j, a, i, b. rewrite flip4_swap_o. auto.
      * exists j, b, i, a. rewrite flip4_swap_o, flip4_swap_v. auto.
    + intros k Hk. apply flip4_diff in Hk; auto. intuition (subst; auto).
  - intros [H Hc]. apply moves_2 in H.
    destruct H as (i & a & j & b & (Hi & Hj & Hij) & (Ha & Hb & Hab) & ->).
    assert (D := fun k => flip4_diff s i a j b k Hi Hj Ha Hb ltac:(lia) ltac:(lia)).
    assert (In i (occ_in s l)) by (apply occ_in_In; split; auto; apply Hc, D; auto).
    assert (In j (occ_in s l)) by (apply occ_in_In; split; auto; apply Hc, D; auto).
    assert (In a (vir_in s l)) by (apply vir_in_In; split; auto; apply Hc, D; auto).
    assert (In b (vir_in s l)) by (apply vir_in_In; split; auto; apply Hc, D; auto).
    destruct (before_total (occ_in s l) i j) as [Bo|Bo]; auto; try lia;
    (destruct (before_total (vir_in s l) a b) as [Bv|Bv]; auto; try lia).
    + exists (i, a, j, b). split; auto. apply double_quads_before; auto.
    + exists (i, b, j, a). split; [apply flip4_swap_v|]. apply double_quads_before; auto.
    + exists (j, a, i, b). split; [apply flip4_swap_o|]. apply double_quads_before; auto.
    + exists (j, b, i, a). split; [rewrite flip4_swap_o; apply flip4_swap_v|].
      apply double_quads_before; auto.
Qed.

Lemma singles_list_NoDup s l : NoDup l -> NoDup (singles_of s (occ_in s l) (vir_in s l)).
Proof.
  intros Nl. apply singles_of_NoDup; try (apply NoDup_filter; auto).
  - intros i H. apply occ_in_In in H. tauto.
  - intros i H. apply vir_in_In in H. tauto.
Qed.

Lemma doubles_list_NoDup s l : NoDup l -> NoDup (doubles_of s (occ_in s l) (vir_in s l)).
Proof.
  intros Nl. assert (No : NoDup (occ_in s l)) by (apply NoDup_filter; auto).
  assert (Nv : NoDup (vir_in s l)) by (apply NoDup_filter; auto).
  apply NoDup_map_inj; [|apply double_quads_NoDup'; auto].
  intros [[[i a] j] b] [[[i' a'] j'] b'] H H' E.
  apply double_quads_before in H, H'. destruct H as [Ho Hv], H' as [Ho' Hv'].
  pose proof (before_irrefl _ _ _ No Ho) as Hij. pose proof (before_irrefl _ _ _ Nv Hv) as Hab.
  pose proof (before_irrefl _ _ _ No Ho') as Hij'. pose proof (before_irrefl _ _ _ Nv Hv') as Hab'.
  pose proof (before_In _ _ _ Ho) as [A1 A2]. pose proof (before_In _ _ _ Hv) as [A3 A4].
  pose proof (before_In _ _ _ Ho') as [B1 B2]. pose proof (before_In _ _ _ Hv') as [B3 B4].
  apply occ_in_In in A1, A2, B1, B2. apply vir_in_In in A3, A4, B3, B4.
  destruct A1, A2, A3, A4, B1, B2, B3, B4.
  assert (O : (i = i' /\ j = j') \/ (i = j' /\ j = i')).
  { apply pair_set_eq'; auto. intros k.
    rewrite <- (flip4_occ s i a j b k), <- (flip4_occ s i' a' j' b' k) by auto.
    rewrite E. reflexivity. }
  assert (V : (a = a' /\ b = b') \/ (a = b' /\ b = a')).
  { apply pair_set_eq'; auto. intros k.
    rewrite <- (flip4_vir s i a j b k), <- (flip4_vir s i' a' j' b' k) by auto.
    rewrite E. reflexivity. }
  destruct O as [[-> ->]|[-> ->]], V as [[-> ->]|[-> ->]]; auto; exfalso.
  - exact (before_asym _ _ _ Nv Hv Hv').
  - exact (before_asym _ _ _ No Ho Ho').
  - exact (before_asym _ _ _ No Ho Ho').
Qed.

Lemma generate_singles_doubles_as_ok dbg W norb s l :
  (forall i, In i l -> i < W) -> (dbg = true -> length (occ_in s l) <= norb) ->
  generate_singles_doubles_as dbg W norb s l =
  Ok (singles_of s (occ_in s l) (vir_in s l), doubles_of s (occ_in s l) (vir_in s l)).
Proof.
  intros Hl Hd. unfold generate_singles_doubles_as. rewrite occ_vir_as_ok by auto.
  cbn [bind fst snd].
  rewrite append_singles_ok, append_doubles_ok; [reflexivity| | | |];
  intros i Hi; apply filter_In in Hi; apply Hl; tauto.
Qed.

Lemma generate_singles_as_ok dbg W norb s l :
  (forall i, In i l -> i < W) -> (dbg = true -> length (occ_in s l) <= norb) ->
  generate_singles_as dbg W norb s l = Ok (singles_of s (occ_in s l) (vir_in s l)).
Proof.
  intros Hl Hd. unfold generate_singles_as. rewrite occ_vir_as_ok by auto.
  cbn [bind fst snd].
  rewrite append_singles_ok; [reflexivity| |];
  intros i Hi; apply filter_In in Hi; apply Hl; tauto.
Qed.

Lemma changes_seq norb s t : wf norb s -> changes_in (seq 0 norb) s t <-> wf norb t.
Proof.
  intros Hs. split.
  - intros H i Hi. destruct (tb t i) eqn:E; auto.
    assert (X : In i (seq 0 norb)) by (apply H; rewrite Hs by auto; congruence).
    apply in_seq in X. lia.
  - intros H k Hk. apply in_seq. destruct (Nat.ltb_spec k norb); [lia|].
    rewrite Hs, H in Hk by auto. congruence.
Qed.

(** ** electron counts are conserved *)

Lemma count_moves k s t : moves k s t -> bs_count s = bs_count t.
Proof.
  intros [H1 H2]. apply size_is_count in H1, H2.
  set (W := N.to_nat (N.size s) + N.to_nat (N.size t)).
  assert (Ws : wf W s) by (eapply wf_le; [|apply wf_size]; unfold W; lia).
  assert (Wt : wf W t) by (eapply wf_le; [|apply wf_size]; unfold W; lia).
  assert (W1 : wf W (N.ldiff s t)) by (intros i Hi; rewrite tb_ldiff, Ws by auto; reflexivity).
  assert (W2 : wf W (N.ldiff t s)) by (intros i Hi; rewrite tb_ldiff, Wt by auto; reflexivity).
  rewrite (count_positions W) in H1 by auto. rewrite (count_positions W) in H2 by auto.
  rewrite (count_positions W s), (count_positions W t) by auto.
  assert (E : length (positions W s) + length (positions W (N.ldiff t s)) =
              length (positions W t) + length (positions W (N.ldiff s t))); [|lia].
  unfold positions. generalize (seq 0 W) as l.
  induction l as [|a l IH]; cbn [filter length]; auto.
  rewrite !tb_ldiff. destruct (tb s a), (tb t a); cbn [andb negb length]; lia.
Qed.

Lemma size_moves k s t n : moves k s t -> size_is s n -> size_is t n.
Proof. rewrite !size_is_count. intros H. rewrite (count_moves k s t H). auto. Qed.

(** ** spin *)

Definition jn (W : nat) (a b : N) : N := N.lor a (bs_shl W b (W / 2)).

Lemma join_spin_ok W a b : spin_width W -> wf (W/2) a -> wf (W/2) b ->
  join_spin W a b = Ok (jn W a b).
Proof.
  intros HW Ha Hb. pose proof (spin_width_half W HW). unfold join_spin.
  rewrite !expand_ok by (auto; lia). reflexivity.
Qed.

Lemma alpha_lo W x : spin_width W -> alpha W x = bitset_lo_word W x.
Proof.
  intros HW. apply tb_ext. intros i. unfold alpha. rewrite tb_mod, tb_lo by auto. reflexivity.
Qed.
Lemma beta_hi W x : spin_width W -> wf W x -> beta W x = bitset_hi_word W x.
Proof.
  intros HW Hx. pose proof (spin_width_half W HW). apply tb_ext. intros i. unfold beta.
  rewrite tb_div, tb_hi by auto. destruct (Nat.ltb_spec i (W/2)); auto.
  cbn [andb]. apply Hx. lia.
Qed.

Lemma wf_jn W a b : spin_width W -> wf (W/2) a -> wf W (jn W a b).
Proof.
  intros HW Ha. pose proof (spin_width_half W HW). unfold jn. apply wf_or; [|apply wf_bs_shl].
  eapply wf_le; [|exact Ha]. lia.
Qed.

Lemma alpha_jn W a b : spin_width W -> wf (W/2) a -> wf (W/2) b -> alpha W (jn W a b) = a.
Proof. intros. rewrite alpha_lo by auto. apply lo_of_combine; auto. Qed.
Lemma beta_jn W a b : spin_width W -> wf (W/2) a -> wf (W/2) b -> beta W (jn W a b) = b.
Proof. intros. rewrite beta_hi by auto using wf_jn. apply hi_of_combine; auto. Qed.

Lemma jn_alpha_beta W x : spin_width W -> wf W x -> jn W (alpha W x) (beta W x) = x.
Proof. intros. rewrite alpha_lo, beta_hi by auto. apply lo_hi_recombine; auto. Qed.

Lemma wf_alpha W x : wf (W/2) (alpha W x). Proof. apply wf_mod. Qed.
Lemma wf_beta W x : spin_width W -> wf W x -> wf (W/2) (beta W x).
Proof. intros. rewrite beta_hi by auto. apply wf_hi; auto. Qed.

Lemma wf_of_parts W x : spin_width W -> wf (W/2) (beta W x) -> wf W x.
Proof.
  intros HW H i Hi. pose proof (spin_width_half W HW).
  specialize (H (i - W/2)). unfold beta in H. rewrite tb_div in H.
  replace (i - W/2 + W/2) with i in H by lia. apply H. lia.
Qed.

Lemma in_space_wf W norb x : spin_width W -> norb <= W/2 -> in_space W norb x -> wf W x.
Proof. intros HW Hn [_ H]. apply wf_of_parts; auto. eapply wf_le; eauto. Qed.

Lemma jn_inj W a b a' b' : spin_width W -> wf (W/2) a -> wf (W/2) b ->
  wf (W/2) a' -> wf (W/2) b' -> jn W a b = jn W a' b' -> a = a' /\ b = b'.
Proof.
  intros HW Ha Hb Ha' Hb' E. split.
  - rewrite <- (alpha_jn W a b), <- (alpha_jn W a' b'), E; auto.
  - rewrite <- (beta_jn W a b), <- (beta_jn W a' b'), E; auto.
Qed.

Definition s_singles W sa sb la lb : list N :=
  map (fun x => jn W x sb) la ++ map (fun x => jn W sa x) lb.
Definition s_doubles W sa sb la lb da db : list N :=
  map (fun x => jn W x sb) da ++ map (fun x => jn W sa x) db ++
  map (fun p => jn W (fst p) (snd p)) (list_prod la lb).

Section SPIN.
  Variables (W : nat) (HW : spin_width W).
  Variables (sa sb : N) (Wa : wf (W/2) sa) (Wb : wf (W/2) sb).
  Variables (la lb da db : list N).
  Hypothesis Hla : forall x, In x la -> wf (W/2) x /\ moves 1 sa x.
  Hypothesis Hlb : forall x, In x lb -> wf (W/2) x /\ moves 1 sb x.
  Hypothesis Hda : forall x, In x da -> wf (W/2) x /\ moves 2 sa x.
  Hypothesis Hdb : forall x, In x db -> wf (W/2) x /\ moves 2 sb x.
  Hypothesis Nla : NoDup la. Hypothesis Nlb : NoDup lb.
  Hypothesis Nda : NoDup da. Hypothesis Ndb : NoDup db.

  Lemma spin_singles_ok : spin_singles W sa sb la lb = Ok (s_singles W sa sb la lb).
  Proof.
    unfold spin_singles, s_singles.
    rewrite (mapM_ok _ (fun x => jn W x sb)).
    2:{ intros x Hx. apply join_spin_ok; auto. apply Hla, Hx. }
    cbn [bind]. rewrite (mapM_ok _ (fun x => jn W sa x)); [reflexivity|].
    intros x Hx. apply join_spin_ok; auto. apply Hlb, Hx.
  Qed.

  Lemma spin_doubles_ok :
    spin_doubles W sa sb la lb da db = Ok (s_doubles W sa sb la lb da db).
  Proof.
    unfold spin_doubles, s_doubles.
    rewrite (mapM_ok _ (fun x => jn W x sb)).
    2:{ intros x Hx. apply join_spin_ok; auto. apply Hda, Hx. }
    cbn [bind]. rewrite (mapM_ok _ (fun x => jn W sa x)).
    2:{ intros x Hx. apply join_spin_ok; auto. apply Hdb, Hx. }
    cbn [bind]. rewrite (mapM_ok _ (fun p => jn W (fst p) (snd p))); [reflexivity|].
    intros [x y] H. apply in_prod_iff in H. destruct H. apply join_spin_ok; auto; cbn [fst snd].
    - apply Hla; auto.
    - apply Hlb; auto.
  Qed.

  Lemma s_singles_In t : In t (s_singles W sa sb la lb) <->
    wf W t /\ ((In (alpha W t) la /\ beta W t = sb) \/ (alpha W t = sa /\ In (beta W t) lb)).
  Proof.
    unfold s_singles. rewrite in_app_iff, !in_map_iff. split.
    - intros [(x & <- & Hx)|(x & <- & Hx)].
      + destruct (Hla x Hx). rewrite alpha_jn, beta_jn by auto. split; auto using wf_jn.
      + destruct (Hlb x Hx). rewrite alpha_jn, beta_jn by auto. split; auto using wf_jn.
    - intros [Hw [[H1 H2]|[H1 H2]]].
      + left. exists (alpha W t). split; auto. rewrite <- H2. apply jn_alpha_beta; auto.
      + right. exists (beta W t). split; auto. rewrite <- H1. apply jn_alpha_beta; auto.
  Qed.

  Lemma s_doubles_In t : In t (s_doubles W sa sb la lb da db) <->
    wf W t /\ ((In (alpha W t) da /\ beta W t = sb) \/ (alpha W t = sa /\ In (beta W t) db)
               \/ (In (alpha W t) la /\ In (beta W t) lb)).
  Proof.
    unfold s_doubles. rewrite !in_app_iff, !in_map_iff. split.
    - intros [(x & <- & Hx)|[(x & <- & Hx)|([x y] & <- & Hx)]].
      + destruct (Hda x Hx). rewrite alpha_jn, beta_jn by auto. split; auto using wf_jn.
      + destruct (Hdb x Hx). rewrite alpha_jn, beta_jn by auto. split; auto using wf_jn.
      + apply in_prod_iff in Hx. destruct Hx as [Hx Hy]. cbn [fst snd].
        destruct (Hla x Hx), (Hlb y Hy). rewrite alpha_jn, beta_jn by auto.
        split; auto using wf_jn.
    - intros [Hw [[H1 H2]|[[H1 H2]|[H1 H2]]]].
      + left. exists (alpha W t). split; auto. rewrite <- H2. apply jn_alpha_beta; auto.
      + right; left. exists (beta W t). split; auto. rewrite <- H1. apply jn_alpha_beta; auto.
      + right; right. exists (alpha W t, beta W t). split; [apply jn_alpha_beta; auto|].
        apply in_prod_iff; auto.
  Qed.

  Lemma s_singles_NoDup : NoDup (s_singles W sa sb la lb).
  Proof.
    unfold s_singles. apply NoDup_app.
    - apply NoDup_map_inj; auto. intros x y Hx Hy E. destruct (Hla _ Hx), (Hla _ Hy).
      eapply jn_inj in E; tauto.
    - apply NoDup_map_inj; auto. intros x y Hx Hy E. destruct (Hlb _ Hx), (Hlb _ Hy).
      eapply jn_inj in E; tauto.
    - intros t H1 H2. apply in_map_iff in H1, H2.
      destruct H1 as (x & <- & Hx), H2 as (y & E & Hy).
      destruct (Hla _ Hx) as [? M], (Hlb _ Hy). apply jn_inj in E; auto. destruct E as [<- _].
      apply moves_fun with (k := 0) in M; [discriminate|]. apply moves_0. reflexivity.
  Qed.

  Lemma not_moved k x : moves (S k) x x -> False.
  Proof. intros M. apply moves_fun with (k := 0) in M; [discriminate|]. apply moves_0. reflexivity. Qed.

  Lemma s_doubles_NoDup : NoDup (s_doubles W sa sb la lb da db).
  Proof.
    unfold s_doubles. apply NoDup_app; [|apply NoDup_app|].
    - apply NoDup_map_inj; auto. intros x y Hx Hy E. destruct (Hda _ Hx), (Hda _ Hy).
      eapply jn_inj in E; tauto.
    - apply NoDup_map_inj; auto. intros x y Hx Hy E. destruct (Hdb _ Hx), (Hdb _ Hy).
      eapply jn_inj in E; tauto.
    - apply NoDup_map_inj; [|apply NoDup_list_prod; auto].
      intros [x y] [x' y'] H H' E. apply in_prod_iff in H, H'. cbn [fst snd] in E.
      destruct H as [H1 H2], H' as [H1' H2'].
      destruct (Hla _ H1), (Hlb _ H2), (Hla _ H1'), (Hlb _ H2').
      apply jn_inj in E; auto. destruct E; congruence.
    - intros t H1 H2. apply in_map_iff in H1, H2.
      destruct H1 as (x & <- & Hx), H2 as ([y z] & E & Hy). apply in_prod_iff in Hy.
      destruct Hy as [Hy Hz]. cbn [fst snd] in E.
      destruct (Hdb _ Hx) as [? M], (Hla _ Hy) as [? M'], (Hlb _ Hz) as [? M''].
      apply jn_inj in E; auto. destruct E as [-> _]. eapply not_moved; eauto.
    - intros t H1 H2. apply in_map_iff in H1. destruct H1 as (x & <- & Hx).
      destruct (Hda _ Hx) as [? M]. apply in_app_or in H2. destruct H2 as [H2|H2].
      + apply in_map_iff in H2. destruct H2 as (y & E & Hy). destruct (Hdb _ Hy) as [? M'].
        apply jn_inj in E; auto. destruct E as [<- _]. eapply not_moved; eauto.
      + apply in_map_iff in H2. destruct H2 as ([y z] & E & Hy). apply in_prod_iff in Hy.
        destruct Hy as [Hy Hz]. cbn [fst snd] in E.
        destruct (Hla _ Hy) as [? M'], (Hlb _ Hz) as [? M''].
        apply jn_inj in E; auto. destruct E as [_ ->]. eapply not_moved; eauto.
  Qed.
End SPIN.

Lemma sum_is_1 a b : a + b = 1 -> (a = 1 /\ b = 0) \/ (a = 0 /\ b = 1). Proof. lia. Qed.
Lemma sum_is_2 a b : a + b = 2 -> (a = 2 /\ b = 0) \/ (a = 0 /\ b = 2) \/ (a = 1 /\ b = 1).
Proof. lia. Qed.

Lemma spin_moves_1 W s t : spin_moves W 1 s t <->
  (moves 1 (alpha W s) (alpha W t) /\ beta W s = beta W t) \/
  (alpha W s = alpha W t /\ moves 1 (beta W s) (beta W t)).
Proof.
  unfold spin_moves. split.
  - intros (ka & kb & E & H1 & H2). apply sum_is_1 in E. destruct E as [[-> ->]|[-> ->]].
    + left. rewrite <- moves_0. auto.
    + right. rewrite <- moves_0. auto.
  - intros [[H1 H2]|[H1 H2]].
    + exists 1, 0. rewrite moves_0. auto.
    + exists 0, 1. rewrite moves_0. auto.
Qed.

Lemma spin_moves_2 W s t : spin_moves W 2 s t <->
  (moves 2 (alpha W s) (alpha W t) /\ beta W s = beta W t) \/
  (alpha W s = alpha W t /\ moves 2 (beta W s) (beta W t)) \/
  (moves 1 (alpha W s) (alpha W t) /\ moves 1 (beta W s) (beta W t)).
Proof.
  unfold spin_moves. split.
  - intros (ka & kb & E & H1 & H2). apply sum_is_2 in E.
    destruct E as [[-> ->]|[[-> ->]|[-> ->]]].
    + left. rewrite <- moves_0. auto.
    + right; left. rewrite <- moves_0. auto.
    + right; right. auto.
  - intros [[H1 H2]|[[H1 H2]|[H1 H2]]].
    + exists 2, 0. rewrite moves_0. auto.
    + exists 0, 2. rewrite moves_0. auto.
    + exists 1, 1. auto.
Qed.

Lemma spin_moves_0 W s t : spin_width W -> wf W s -> wf W t -> spin_moves W 0 s t <-> s = t.
Proof.
  intros HW Hs Ht. split.
  - intros (ka & kb & E & H1 & H2). assert (ka = 0) by lia. assert (kb = 0) by lia. subst.
    apply moves_0 in H1, H2. rewrite <- (jn_alpha_beta W s), <- (jn_alpha_beta W t), H1, H2; auto.
  - intros ->. exists 0, 0. rewrite !moves_0. auto.
Qed.

Lemma spin_moves_fun W k k' s t : spin_moves W k s t -> spin_moves W k' s t -> k = k'.
Proof.
  intros (a & b & <- & H1 & H2) (a' & b' & <- & H1' & H2').
  rewrite (moves_fun _ _ _ _ H1 H1'), (moves_fun _ _ _ _ H2 H2'). reflexivity.
Qed.

(** the spin-resolved generators over an orbital list [l] below W/2 *)
Section SPIN_LIST.
  Variables (W : nat) (HW : spin_width W) (l : list nat) (Nl : NoDup l).
  Hypothesis Hl : forall i, In i l -> i < W / 2.
  Variables (s : N) (Hs : wf W s).

  Let sing x := singles_of x (occ_in x l) (vir_in x l).
  Let doub x := doubles_of x (occ_in x l) (vir_in x l).

  Lemma changes_wf x y : wf (W/2) x -> changes_in l x y -> wf (W/2) y.
  Proof.
    intros Hx Hc i Hi. destruct (tb y i) eqn:E; auto.
    assert (In i l) by (apply Hc; rewrite Hx by auto; congruence).
    apply Hl in H. lia.
  Qed.

  Lemma sing_moves x : wf (W/2) x -> forall y, In y (sing x) -> wf (W/2) y /\ moves 1 x y.
  Proof.
    intros Hx y Hy. apply singles_list in Hy. destruct Hy as [H1 H2].
    split; auto. eapply changes_wf; eauto.
  Qed.
  Lemma doub_moves x : wf (W/2) x -> forall y, In y (doub x) -> wf (W/2) y /\ moves 2 x y.
  Proof.
    intros Hx y Hy. apply doubles_list in Hy; auto. destruct Hy as [H1 H2].
    split; auto. eapply changes_wf; eauto.
  Qed.

  Let S := s_singles W (alpha W s) (beta W s) (sing (alpha W s)) (sing (beta W s)).
  Let D := s_doubles W (alpha W s) (beta W s) (sing (alpha W s)) (sing (beta W s))
             (doub (alpha W s)) (doub (beta W s)).

  Lemma wa : wf (W/2) (alpha W s). Proof. apply wf_alpha. Qed.
  Lemma wb : wf (W/2) (beta W s). Proof. apply wf_beta; auto. Qed.

  
  Lemma changes_refl x : changes_in l x x. Proof. intros k H. congruence. Qed.

  Lemma spin_list_singles_In t :
    In t S <-> wf W t /\ spin_moves W 1 s t /\ spin_changes_in W l s t.
  Proof.
    unfold S. rewrite s_singles_In; auto using wa, wb, sing_moves.
    unfold sing. rewrite !singles_list, spin_moves_1. unfold spin_changes_in. split.
    - intros [Hw [[[H1 H2] H3]|[H1 [H2 H3]]]]; split; auto.
      + split; [left; split; auto|]. split; auto. rewrite H3. apply changes_refl.
      + split; [right; split; auto|]. split; auto. rewrite H1. apply changes_refl.
    - intros [Hw [[[H1 H2]|[H1 H2]] [C1 C2]]]; split; auto.
  Qed.

  Lemma spin_list_doubles_In t :
    In t D <-> wf W t /\ spin_moves W 2 s t /\ spin_changes_in W l s t.
  Proof.
    unfold D. rewrite s_doubles_In; auto using wa, wb, sing_moves, doub_moves.
    unfold sing, doub. rewrite !singles_list, !doubles_list, spin_moves_2 by auto.
    unfold spin_changes_in. split.
    - intros [Hw [[[H1 H2] H3]|[[H1 [H2 H3]]|[[H1 H2] [H3 H4]]]]]; split; auto.
      + split; [left; split; auto|]. split; auto. rewrite H3. apply changes_refl.
      + split; [right; left; split; auto|]. split; auto. rewrite H1. apply changes_refl.
    - intros [Hw [[[H1 H2]|[[H1 H2]|[H1 H2]]] [C1 C2]]]; split; auto.
  Qed.

  Lemma spin_list_singles_NoDup : NoDup S.
  Proof.
    unfold S. apply s_singles_NoDup; auto using wa, wb, sing_moves, singles_list_NoDup.
    - apply singles_list_NoDup; auto.
    - apply singles_list_NoDup; auto.
  Qed.
  Lemma spin_list_doubles_NoDup : NoDup D.
  Proof.
    unfold D. apply s_doubles_NoDup; auto using wa, wb, sing_moves, doub_moves;
    unfold sing, doub; auto using singles_list_NoDup, doubles_list_NoDup.
  Qed.

  Lemma spin_list_singles_ok :
    spin_singles W (alpha W s) (beta W s) (sing (alpha W s)) (sing (beta W s)) = Ok S.
  Proof. apply spin_singles_ok; auto using wa, wb, sing_moves. Qed.
  Lemma spin_list_doubles_ok :
    spin_doubles W (alpha W s) (beta W s) (sing (alpha W s)) (sing (beta W s))
             (doub (alpha W s)) (doub (beta W s)) = Ok D.
  Proof. apply spin_doubles_ok; auto using wa, wb, sing_moves, doub_moves. Qed.

  Lemma S_length : length S =
    length (vir_in (alpha W s) l) * length (occ_in (alpha W s) l) +
    length (vir_in (beta W s) l) * length (occ_in (beta W s) l).
  Proof.
    unfold S, s_singles, sing, singles_of.
    rewrite app_length, !map_length, !single_pairs_length. reflexivity.
  Qed.

  Lemma generate_singles_doubles_spin_as_ok dbg norb :
    (dbg = true -> length (occ_in (alpha W s) l) <= norb) ->
    (dbg = true -> length (occ_in (beta W s) l) <= norb) ->
    generate_singles_doubles_spin_as dbg W norb s l = Ok (S, D).
  Proof.
    intros Ha Hb. unfold generate_singles_doubles_spin_as.
    rewrite <- alpha_lo, <- beta_hi by auto.
    rewrite !generate_singles_doubles_as_ok by auto. cbn [bind fst snd].
    fold (sing (alpha W s)) (sing (beta W s)) (doub (alpha W s)) (doub (beta W s)).
    rewrite spin_list_singles_ok, spin_list_doubles_ok. reflexivity.
  Qed.

  Lemma generate_singles_spin_as_ok dbg norb :
    (dbg = true -> length (occ_in (alpha W s) l) <= norb) ->
    (dbg = true -> length (occ_in (beta W s) l) <= norb) ->
    generate_singles_spin_as dbg W norb s l = Ok S.
  Proof.
    intros Ha Hb. unfold generate_singles_spin_as.
    rewrite <- alpha_lo, <- beta_hi by auto.
    rewrite !generate_singles_as_ok by auto. cbn [bind fst snd].
    apply spin_list_singles_ok.
  Qed.
End SPIN_LIST.

(** the full orbital range *)
Section SPIN_FULL.
  Variables (W norb : nat) (HW : spin_width W) (Hn : norb <= W / 2).
  Variables (s : N) (Hs : in_space W norb s) (dbg : bool).
  Hypothesis Hda : dbg = true -> bs_count (alpha W s) < norb.
  Hypothesis Hdb : dbg = true -> bs_count (beta W s) < norb.

  Let S := s_singles W (alpha W s) (beta W s)
    (singles_of (alpha W s) (occ_in (alpha W s) (seq 0 norb)) (vir_in (alpha W s) (seq 0 norb)))
    (singles_of (beta W s) (occ_in (beta W s) (seq 0 norb)) (vir_in (beta W s) (seq 0 norb))).
  Let D := s_doubles W (alpha W s) (beta W s)
    (singles_of (alpha W s) (occ_in (alpha W s) (seq 0 norb)) (vir_in (alpha W s) (seq 0 norb)))
    (singles_of (beta W s) (occ_in (beta W s) (seq 0 norb)) (vir_in (beta W s) (seq 0 norb)))
    (doubles_of (alpha W s) (occ_in (alpha W s) (seq 0 norb)) (vir_in (alpha W s) (seq 0 norb)))
    (doubles_of (beta W s) (occ_in (beta W s) (seq 0 norb)) (vir_in (beta W s) (seq 0 norb))).

  Lemma hs : wf W s. Proof. eapply in_space_wf; eauto. Qed.
  Lemma hseq i : In i (seq 0 norb) -> i < W / 2. Proof. rewrite in_seq. lia. Qed.

  Lemma full_singles_doubles_ok :
    generate_singles_doubles_spin dbg W norb s = Ok (S, D).
  Proof.
    unfold generate_singles_doubles_spin. pose proof hs.
    rewrite <- alpha_lo, <- beta_hi by auto. destruct Hs as [Ha Hb].
    rewrite !generate_singles_doubles_ok by auto. cbn [bind fst snd].
    pose proof (spin_list_singles_ok W HW (seq 0 norb) hseq s H) as E1.
    pose proof (spin_list_doubles_ok W HW (seq 0 norb) (seq_NoDup _ _) hseq s H) as E2.
    change (positions norb) with (fun x => occ_in x (seq 0 norb)).
    change (virt norb) with (fun x => vir_in x (seq 0 norb)). cbn beta.
    rewrite E1. cbn [bind]. rewrite E2. reflexivity.
  Qed.

  Lemma full_singles_ok : generate_singles_spin dbg W norb s = Ok S.
  Proof.
    unfold generate_singles_spin. pose proof hs.
    rewrite <- alpha_lo, <- beta_hi by auto. destruct Hs as [Ha Hb].
    rewrite !generate_singles_ok by auto. cbn [bind fst snd].
    exact (spin_list_singles_ok W HW (seq 0 norb) hseq s H).
  Qed.

  Lemma spin_changes_seq t :
    wf W t /\ spin_changes_in W (seq 0 norb) s t <-> in_space W norb t.
  Proof.
    destruct Hs as [Ha Hb]. unfold spin_changes_in. rewrite !changes_seq by auto.
    unfold in_space. split; [tauto|]. intros H; split; auto.
    eapply in_space_wf; eauto.
  Qed.

  Lemma full_singles_In t : In t S <-> in_space W norb t /\ spin_moves W 1 s t.
  Proof.
    pose proof (spin_list_singles_In W HW (seq 0 norb) hseq s hs t) as E.
    rewrite <- (spin_changes_seq t). unfold S. rewrite E. tauto.
  Qed.
  Lemma full_doubles_In t : In t D <-> in_space W norb t /\ spin_moves W 2 s t.
  Proof.
    pose proof (spin_list_doubles_In W HW (seq 0 norb) (seq_NoDup _ _) hseq s hs t) as E.
    rewrite <- (spin_changes_seq t). unfold D. rewrite E. tauto.
  Qed.
  Lemma full_singles_NoDup : NoDup S.
  Proof. exact (spin_list_singles_NoDup W HW (seq 0 norb) (seq_NoDup _ _) hseq s hs). Qed.
  Lemma full_doubles_NoDup : NoDup D.
  Proof. exact (spin_list_doubles_NoDup W HW (seq 0 norb) (seq_NoDup _ _) hseq s hs). Qed.

  Lemma full_singles_spec : exists l, generate_singles_spin dbg W norb s = Ok l /\
    NoDup l /\ forall t, In t l <-> in_space W norb t /\ spin_moves W 1 s t.
  Proof.
    exists S. exact (conj full_singles_ok (conj full_singles_NoDup full_singles_In)).
  Qed.
  Lemma full_singles_doubles_spec : exists l d,
    generate_singles_doubles_spin dbg W norb s = Ok (l, d) /\
    NoDup l /\ (forall t, In t l <-> in_space W norb t /\ spin_moves W 1 s t) /\
    NoDup d /\ (forall t, In t d <-> in_space W norb t /\ spin_moves W 2 s t).
  Proof.
    exists S, D.
    exact (conj full_singles_doubles_ok (conj full_singles_NoDup (conj full_singles_In
          (conj full_doubles_NoDup full_doubles_In)))).
  Qed.

  Lemma cis_spec : exists l, generate_cis dbg W norb s = Ok l /\ NoDup l /\
    forall t, In t l <-> in_space W norb t /\ exists k, k <= 1 /\ spin_moves W k s t.
  Proof.
    exists (s :: S). unfold generate_cis. rewrite full_singles_ok.
    split; [reflexivity|split].
    - constructor; [|apply full_singles_NoDup]. rewrite full_singles_In. intros [_ H].
      assert (spin_moves W 0 s s) by (apply spin_moves_0; auto using hs).
      pose proof (spin_moves_fun _ _ _ _ _ H H0). discriminate.
    - intros t. cbn [In]. rewrite full_singles_In. split.
      + intros [<-|[H1 H2]]; [|split; eauto]. split; auto. exists 0. split; auto.
        apply spin_moves_0; auto using hs.
      + intros [H1 (k & Hk & H2)]. destruct k as [|[|k]]; [|auto|lia].
        left. apply spin_moves_0 in H2; auto using hs. eapply in_space_wf; eauto.
  Qed.

  Lemma cisd_spec : exists l, generate_cisd dbg W norb s = Ok l /\ NoDup l /\
    forall t, In t l <-> in_space W norb t /\ exists k, k <= 2 /\ spin_moves W k s t.
  Proof.
    exists (s :: S ++ D). unfold generate_cisd. rewrite full_singles_doubles_ok.
    assert (M0 : spin_moves W 0 s s) by (apply spin_moves_0; auto using hs).
    split; [reflexivity|split].
    - constructor.
      + rewrite in_app_iff, full_singles_In, full_doubles_In. intros [[_ H]|[_ H]];
        pose proof (spin_moves_fun _ _ _ _ _ H M0); discriminate.
      + apply NoDup_app; [apply full_singles_NoDup|apply full_doubles_NoDup|].
        intros t H1 H2. apply full_singles_In in H1. apply full_doubles_In in H2.
        destruct H1 as [_ H1], H2 as [_ H2].
        pose proof (spin_moves_fun _ _ _ _ _ H1 H2); discriminate.
    - intros t. cbn [In]. rewrite in_app_iff, full_singles_In, full_doubles_In. split.
      + intros [<-|[[H1 H2]|[H1 H2]]]; [|split; eauto|split; eauto]. split; auto. exists 0. auto.
      + intros [H1 (k & Hk & H2)]. destruct k as [|[|[|k]]]; [|auto|auto|lia].
        left. apply spin_moves_0 in H2; auto using hs. eapply in_space_wf; eauto.
  Qed.
End SPIN_FULL.

(** Permutations: inverse, vectors, grouping, rows and columns of a matrix. *)
From Coq Require Import QArith Qcanon Sorting.Permutation Sorting.Sorted.
From Verif Require Import Base SDProofs SDProofs4 Sums Nondet Ham Asci Constraint Mem MemProofs Spmv SparseSpec CsrView SpmvSpec CsrProofs SpmvProofs PSpmvProofs2 PSpmvProofs3 Sparse ConvSpec SparseProofs1 SparseProofs2 SparseProofs3 SparseProofs4 SparseProofs6.
Local Open Scope nat_scope.

Lemma perm_len n p : is_perm n p -> length p = n.
Proof. intros P. apply Permutation_length in P. rewrite seq_length in P. auto. Qed.
Lemma perm_In n p x : is_perm n p -> (In x p <-> x < n).
Proof.
  intros P. split; intros Hx.
  - apply (Permutation_in _ (Permutation_sym P)) in Hx. apply in_seq in Hx. lia.
  - apply (Permutation_in _ P). apply in_seq. lia.
Qed.
Lemma perm_NoDup n p : is_perm n p -> NoDup p.
Proof. intros P. apply (Permutation_NoDup P), seq_NoDup. Qed.
Lemma perm_bound n p i : is_perm n p -> i < n -> nth i p 0 < n.
Proof. intros P Hi. apply (perm_In n p); auto. apply nth_In. rewrite (perm_len n p); auto. Qed.
Lemma perm_inj n p i j : is_perm n p -> i < n -> j < n -> nth i p 0 = nth j p 0 -> i = j.
Proof.
  intros P Hi Hj E. pose proof (perm_NoDup n p P) as ND. rewrite (NoDup_nth p 0) in ND. apply ND; auto; rewrite (perm_len n p P); auto.
Qed.
Lemma map_nth_self (p : list nat) n : length p = n -> map (fun i => nth i p 0) (seq 0 n) = p.
Proof. intros <-. symmetry. apply list_as_map. Qed.
(** a bounded list without repetition of full length is a permutation *)
Lemma perm_intro n p : length p = n -> NoDup p -> (forall x, In x p -> x < n) -> is_perm n p.
Proof.
  intros L ND B. apply NoDup_Permutation_bis; auto.
Abort.

Lemma invert_perm_ok n p : is_perm n p -> exists q, invert_perm p = Ok q /\ is_perm n q /\
  (forall i, i < n -> nth (nth i p 0) q 0 = i) /\ (forall j, j < n -> nth (nth j q 0) p 0 = j).
Proof.
  intros P. pose proof (perm_len n p P) as L. unfold invert_perm. rewrite L.
  destruct (foldM_cells 0 (fun iperm i => do x <- at_ p i; put iperm x i) (fun i => nth i p 0) (fun i _ => i) (seq 0 n) (repeat 0 n) n) as (q & E & Lq & R & _).
  - apply repeat_length.
  - rewrite (map_nth_self p n L). apply (perm_NoDup n p P).
  - intros i Hi. apply in_seq in Hi. apply perm_bound; auto; lia.
  - intros s i Hi Ls. apply in_seq in Hi. rewrite (at_ok _ _ 0) by lia. cbn [bind]. apply put_ok. rewrite Ls. apply perm_bound; auto; lia.
  - assert (Q1 : forall i, i < n -> nth (nth i p 0) q 0 = i) by (intros i Hi; apply R, in_seq; lia).
    exists q. split; auto.
    assert (P' : is_perm n q).
    { unfold is_perm. rewrite <- (map_nth_self q n Lq). apply Permutation_trans with (map (fun j => nth j q 0) p).
      - rewrite <- (map_nth_self p n L) at 1. rewrite map_map. rewrite (map_ext_in _ (fun i => i)); [rewrite map_id; auto|].
        intros i Hi. apply in_seq in Hi. apply Q1. lia.
      - apply Permutation_map. apply Permutation_sym, P. }
    split; auto. split; auto. intros j Hj.
    apply (perm_inj n q); auto; [apply perm_bound; auto; apply perm_bound; auto|]. apply Q1. apply perm_bound; auto.
Qed.

(** ** vectors *)
Lemma inplace_forward n V P : is_perm n P -> n <= length V ->
  exists V', permute_vector_inplace n V P Forward = Ok V' /\ length V' = length V /\
    (forall i, i < n -> nth (nth i P 0) V' 0%Qc = nth i V 0%Qc) /\ (forall i, n <= i -> nth i V' 0%Qc = nth i V 0%Qc).
Proof.
  intros HP HL. pose proof (perm_len n P HP) as L. unfold permute_vector_inplace, permute_forward.
  destruct (foldM_cells (@None Qc) (fun Vp i => do p <- at_ P i; do v <- at_ V i; put Vp p (Some v)) (fun i => nth i P 0) (fun i _ => Some (nth i V 0%Qc)) (seq 0 n) (repeat (Some 0%Qc) n) n) as (s & E & Ls & R & _).
  - apply repeat_length.
  - rewrite (map_nth_self P n L). apply (perm_NoDup n P HP).
  - intros i Hi. apply in_seq in Hi. apply perm_bound; auto; lia.
  - intros s i Hi Ls. apply in_seq in Hi. rewrite (at_ok _ _ 0) by lia. cbn [bind]. rewrite (at_ok _ _ 0%Qc) by lia. cbn [bind]. apply put_ok. rewrite Ls. apply perm_bound; auto; lia.
  - rewrite E. cbn [bind]. destruct (invert_perm_ok n P HP) as (q & _ & HQ & Q1 & Q2).
    rewrite (mapM_ok _ (fun i => nth (nth i q 0) V 0%Qc)).
    2:{ intros i Hi. apply in_seq in Hi. unfold load. rewrite (nth_error_nth' _ None) by lia.
        rewrite <- (Q2 i) at 1 by lia. rewrite R by (apply in_seq; pose proof (perm_bound n q i HQ ltac:(lia)); lia). reflexivity. }
    cbn [bind].
    pose proof (put_all_mid [] (firstn n V) (skipn n V) (map (fun i => nth (nth i q 0) V 0%Qc) (seq 0 n))) as PM. cbn [app length] in PM. rewrite firstn_skipn in PM.
    rewrite PM by (rewrite map_length, seq_length, firstn_length; lia).
    eexists. split; [reflexivity|]. rewrite app_length, map_length, seq_length, skipn_length. split; [lia|].
    split; intros i Hi.
    + rewrite app_nth1 by (rewrite map_length, seq_length; apply perm_bound; auto). rewrite nth_map_seq by (apply perm_bound; auto). rewrite Q1; auto.
    + rewrite app_nth2 by (rewrite map_length, seq_length; lia). rewrite map_length, seq_length, nth_skipn. f_equal. lia.
Qed.
Lemma inplace_backward n V P : is_perm n P -> n <= length V ->
  exists V', permute_vector_inplace n V P Backward = Ok V' /\ length V' = length V /\
    (forall i, i < n -> nth i V' 0%Qc = nth (nth i P 0) V 0%Qc) /\ (forall i, n <= i -> nth i V' 0%Qc = nth i V 0%Qc).
Proof.
  intros HP HL. pose proof (perm_len n P HP) as L. unfold permute_vector_inplace, permute_backward.
  destruct (foldM_cells (@None Qc) (fun Vp i => do p <- at_ P i; do v <- at_ V p; put Vp i (Some v)) (fun i => i) (fun i _ => Some (nth (nth i P 0) V 0%Qc)) (seq 0 n) (repeat (Some 0%Qc) n) n) as (s & E & Ls & R & _).
  - apply repeat_length.
  - rewrite map_id. apply seq_NoDup.
  - intros i Hi. apply in_seq in Hi. lia.
  - intros s i Hi Ls. apply in_seq in Hi. rewrite (at_ok _ _ 0) by lia. cbn [bind]. pose proof (perm_bound n P i HP ltac:(lia)).
    rewrite (at_ok _ _ 0%Qc) by lia. cbn [bind]. apply put_ok. lia.
  - rewrite E. cbn [bind].
    rewrite (mapM_ok _ (fun i => nth (nth i P 0) V 0%Qc)).
    2:{ intros i Hi. assert (Hi' := Hi). apply in_seq in Hi. unfold load. rewrite (nth_error_nth' _ None) by lia. rewrite R by auto. reflexivity. }
    cbn [bind].
    pose proof (put_all_mid [] (firstn n V) (skipn n V) (map (fun i => nth (nth i P 0) V 0%Qc) (seq 0 n))) as PM. cbn [app length] in PM. rewrite firstn_skipn in PM.
    rewrite PM by (rewrite map_length, seq_length, firstn_length; lia).
    eexists. split; [reflexivity|]. rewrite app_length, map_length, seq_length, skipn_length. split; [lia|].
    split; intros i Hi.
    + rewrite app_nth1 by (rewrite map_length, seq_length; auto). rewrite nth_map_seq; auto.
    + rewrite app_nth2 by (rewrite map_length, seq_length; lia). rewrite map_length, seq_length, nth_skipn. f_equal. lia.
Qed.
Lemma inplace_round_trip n V P d d' : is_perm n P -> n <= length V -> d <> d' ->
  (do V' <- permute_vector_inplace n V P d; permute_vector_inplace n V' P d') = Ok V.
Proof.
  intros HP HL Hd. destruct (invert_perm_ok n P HP) as (q & _ & HQ & Q1 & Q2).
  destruct d, d'; try congruence.
  - destruct (inplace_forward n V P HP HL) as (V' & E & L & R & U). rewrite E. cbn [bind].
    destruct (inplace_backward n V' P HP ltac:(lia)) as (W & E' & L' & R' & U'). rewrite E'. f_equal.
    apply (nth_ext' _ _ 0%Qc); [lia|]. intros i Hi. destruct (Nat.lt_ge_cases i n) as [H|H]; [rewrite R', R; auto|rewrite U', U; auto].
  - destruct (inplace_backward n V P HP HL) as (V' & E & L & R & U). rewrite E. cbn [bind].
    destruct (inplace_forward n V' P HP ltac:(lia)) as (W & E' & L' & R' & U'). rewrite E'. f_equal.
    apply (nth_ext' _ _ 0%Qc); [lia|]. intros i Hi. destruct (Nat.lt_ge_cases i n) as [H|H]; [|rewrite U', U; auto].
    rewrite <- (Q2 i) at 1 by auto. rewrite R' by (apply perm_bound; auto). rewrite R by (apply perm_bound; auto). rewrite Q2; auto.
Qed.

(** ** grouping *)
Definition group (part : list nat) (p : nat) : list nat := filter (fun i => nth i part 0 =? p) (seq 0 (length part)).
Definition groups (npart : nat) (part : list nat) : list (list nat) := map (group part) (seq 0 npart).
Lemma seq_S_r k : seq 0 (S k) = seq 0 k ++ [k].
Proof. rewrite <- Nat.add_1_r, seq_app. reflexivity. Qed.
Lemma offset_concat {X} (L : list (list X)) i : offset L i = length (concat (firstn i L)).
Proof. unfold offset. rewrite concat_length, firstn_map. reflexivity. Qed.
Lemma perm_from_part_run npart part : 0 < npart ->
  perm_from_part npart part =
    if forallb (fun c => c <? npart) part then Ok (concat (groups npart part), prefix_sums 0 (map (@length _) (groups npart part))) else Err Throw.
Proof.
  intros HN. unfold perm_from_part. unfold put_at at 1. rewrite repeat_length. destruct (Nat.ltb_spec 0 (npart + 1)) as [_|]; [|lia].
  rewrite put_ok by (rewrite repeat_length; lia). cbn [bind].
  set (rest := fun k => filter (fun i => k <=? nth i part 0) (seq 0 (length part))).
  match goal with |- context [foldM (seq 0 (npart - 1)) ?f ?init] => destruct (foldM_seq f (fun k s => exists ptr,
      s = (concat (map (group part) (seq 0 k)) ++ rest k, length (concat (map (group part) (seq 0 k))), ptr) /\ length ptr = npart + 1 /\
      forall j, j <= k -> nth j ptr 0 = length (concat (map (group part) (seq 0 j)))) 0 (npart - 1) init) as (s' & E & ptr & -> & Lp & Hp) end.
  - eexists. split; [|split].
    + cbn [seq map concat app length]. f_equal. f_equal. unfold rest. rewrite filter_all; auto.
    + rewrite upd_length, repeat_length. reflexivity.
    + intros j Hj. assert (j = 0) by lia. subst j. rewrite upd_nth by (rewrite repeat_length; lia). reflexivity.
  - intros k s Hk (ptr & -> & Lp & Hp). cbv beta iota.
    set (dn := concat (map (group part) (seq 0 k))).
    rewrite skipn_app, skipn_all, Nat.sub_diag. cbn [skipn app].
    rewrite firstn_app, firstn_all, Nat.sub_diag. cbn [firstn]. rewrite app_nil_r.
    assert (F1 : filter (fun i => nth i part 0 =? k) (rest k) = group part k).
    { unfold rest, group. rewrite filter_filter. apply filter_ext. intros i. destruct (Nat.eqb_spec (nth i part 0) k), (Nat.leb_spec k (nth i part 0)); cbn; auto; lia. }
    assert (F2 : filter (fun i => negb (nth i part 0 =? k)) (rest k) = rest (S k)).
    { unfold rest. rewrite filter_filter. apply filter_ext. intros i. destruct (Nat.eqb_spec (nth i part 0) k), (Nat.leb_spec k (nth i part 0)), (Nat.leb_spec (S k) (nth i part 0)); cbn; auto; lia. }
    rewrite F1, F2. unfold put_at. destruct (Nat.ltb_spec (k + 1) (length ptr)); [|lia]. rewrite put_ok by lia. cbn [bind].
    assert (DN : concat (map (group part) (seq 0 (S k))) = dn ++ group part k) by (rewrite seq_S_r, map_app, concat_app; cbn; rewrite app_nil_r; reflexivity).
    eexists. split; [reflexivity|]. eexists. split; [|split].
    + rewrite DN, <- app_assoc, app_length. reflexivity.
    + rewrite upd_length. auto.
    + intros j Hj. rewrite upd_nth by lia. destruct (Nat.eqb_spec j (k + 1)) as [->|ne]; [|apply Hp; lia].
      rewrite Nat.add_1_r, DN, app_length. reflexivity.
  - rewrite E. cbn [bind plus]. unfold put_at. destruct (Nat.ltb_spec npart (length ptr)); [|lia]. rewrite put_ok by lia. cbn [bind].
    set (perm := concat (map (group part) (seq 0 (npart - 1))) ++ rest (npart - 1)).
    set (ptr' := upd ptr npart (length perm)).
    (* contents of segment p *)
    set (sg := fun p => if p =? npart - 1 then rest (npart - 1) else group part p).
    assert (EP : perm = concat (map sg (seq 0 npart))).
    { replace npart with (S (npart - 1)) at 1 by lia. rewrite seq_S_r, map_app, concat_app. unfold perm. f_equal.
      - f_equal. apply map_ext_in. intros p Hp'. apply in_seq in Hp'. unfold sg. destruct (Nat.eqb_spec p (npart - 1)); auto; lia.
      - cbn. unfold sg. rewrite Nat.eqb_refl, app_nil_r. reflexivity. }
    assert (PP : forall j, j <= npart -> nth j ptr' 0 = length (concat (map sg (seq 0 j)))).
    { intros j Hj. unfold ptr'. rewrite upd_nth by lia. destruct (Nat.eqb_spec j npart) as [->|ne]; [rewrite EP; auto|].
      rewrite Hp by lia. f_equal. f_equal. apply map_ext_in. intros p Hp'. apply in_seq in Hp'. unfold sg. destruct (Nat.eqb_spec p (npart - 1)); auto; lia. }
    assert (SEG : forall p, p < npart -> slice_ perm (nth p ptr' 0) (nth (p + 1) ptr' 0) = Ok (sg p)).
    { intros p Hp'. assert (SQ : seq 0 npart = seq 0 p ++ p :: seq (S p) (npart - S p)).
      { replace npart with (p + S (npart - S p)) at 1 by lia. rewrite seq_app. reflexivity. }
      rewrite !PP by lia. rewrite Nat.add_1_r, seq_S_r, map_app, concat_app, app_length. cbn [map concat]. rewrite app_nil_r.
      rewrite EP, SQ, map_app, concat_app. cbn [map concat]. rewrite slice_ok by (rewrite ?app_length; lia). f_equal.
      unfold seg. rewrite skipn_app, skipn_all, Nat.sub_diag. cbn [skipn app].
      replace (length (concat (map sg (seq 0 p))) + length (sg p) - length (concat (map sg (seq 0 p)))) with (length (sg p)) by lia.
      rewrite firstn_app, firstn_all, Nat.sub_diag. cbn [firstn]. apply app_nil_r. }
    assert (CK : forall p, p < npart -> (do a <- at_ ptr' p; do b <- at_ ptr' (p + 1); do l <- slice_ perm a b;
        if existsb (fun i => negb (nth i part 0 =? p)) l then Err Throw else Ok tt) = if existsb (fun i => negb (nth i part 0 =? p)) (sg p) then Err Throw else Ok tt).
    { intros p Hp'. assert (length ptr' = npart + 1) by (unfold ptr'; rewrite upd_length; auto).
      rewrite (at_ok _ _ 0) by lia. cbn [bind]. rewrite (at_ok _ _ 0) by lia. cbn [bind]. rewrite SEG by auto. reflexivity. }
    assert (G0 : forall p, existsb (fun i => negb (nth i part 0 =? p)) (group part p) = false).
    { intros p. apply not_true_is_false. intros X. apply existsb_exists in X. destruct X as (i & Hi & X). apply filter_In in Hi. destruct Hi as [_ Hi]. rewrite Hi in X. discriminate. }
    destruct (forallb (fun c => c <? npart) part) eqn:FA.
    + assert (RG : rest (npart - 1) = group part (npart - 1)).
      { unfold rest, group. apply filter_ext_in. intros i Hi. apply in_seq in Hi. rewrite forallb_forall in FA.
        specialize (FA (nth i part 0) ltac:(apply nth_In; lia)). apply Nat.ltb_lt in FA.
        destruct (Nat.leb_spec (npart - 1) (nth i part 0)), (Nat.eqb_spec (nth i part 0) (npart - 1)); auto; lia. }
      assert (SG : forall p, sg p = group part p) by (intros p; unfold sg; destruct (Nat.eqb_spec p (npart - 1)) as [->|]; auto).
      rewrite (mapM_ok _ (fun _ => tt)) by (intros p Hp'; apply in_seq in Hp'; rewrite CK, SG, G0 by lia; auto). cbn [bind].
      f_equal. f_equal.
      * rewrite EP. unfold groups. f_equal. apply map_ext. auto.
      * apply (nth_ext' _ _ 0).
        -- rewrite prefix_sums_length. unfold groups, ptr'. rewrite !map_length, seq_length, upd_length. auto.
        -- unfold ptr'. rewrite upd_length. intros j Hj. fold ptr'. rewrite PP by lia. rewrite prefix_sums_nth by (unfold groups; rewrite !map_length, seq_length; lia).
           cbn [plus]. unfold groups. rewrite firstn_map, <- concat_length. f_equal. rewrite firstn_map. f_equal.
           rewrite (map_ext _ _ SG). f_equal. assert (HH : j <= npart) by lia. clear -HH.
           replace npart with (j + (npart - j)) by lia. rewrite seq_app, firstn_app, seq_length, Nat.sub_diag, firstn_all2 by (rewrite seq_length; lia). cbn. rewrite app_nil_r. reflexivity.
    + assert (X : exists i, i < length part /\ npart <= nth i part 0).
      { assert (Y : existsb (fun c => negb (c <? npart)) part = true).
        { clear -FA. induction part as [|c part IH]; cbn [forallb existsb] in *; [discriminate|]. destruct (c <? npart); cbn [negb andb orb] in *; auto. }
        apply existsb_exists in Y. destruct Y as (c & Hc & Y). apply (In_nth _ _ 0) in Hc. destruct Hc as (i & Hi & <-). exists i. split; auto.
        destruct (Nat.ltb_spec (nth i part 0) npart); auto; discriminate. }
      destruct X as (i & Hi & Hn).
      assert (B1 : existsb (fun i => negb (nth i part 0 =? npart - 1)) (sg (npart - 1)) = true).
      { apply existsb_exists. exists i. unfold sg. rewrite Nat.eqb_refl. split; [apply filter_In; split; [apply in_seq; lia|apply Nat.leb_le; lia]|].
        destruct (Nat.eqb_spec (nth i part 0) (npart - 1)); auto; lia. }
      replace (seq 0 npart) with (seq 0 (npart - 1) ++ [npart - 1]) by (rewrite <- seq_S_r; f_equal; lia).
      assert (AP : forall l (x : nat) (f : nat -> res unit), (forall y, In y l -> f y = Ok tt) -> f x = Err Throw -> mapM f (l ++ [x]) = Err Throw).
      { intros l x f. induction l as [|y l IH]; intros Hf Hx; cbn [app mapM]; [rewrite Hx; reflexivity|]. rewrite Hf by (left; auto). cbn [bind].
        rewrite IH; [reflexivity| |auto]. intros z Hz. apply Hf. right; auto. }
      rewrite AP; auto.
      * intros p Hp'. apply in_seq in Hp'. rewrite CK by lia. unfold sg. destruct (Nat.eqb_spec p (npart - 1)); [lia|]. rewrite G0. reflexivity.
      * rewrite CK by lia. rewrite B1. reflexivity.
Qed.
Lemma groups_perm npart part : (forall c, In c part -> c < npart) -> is_perm (length part) (concat (groups npart part)).
Proof.
  intros H. unfold is_perm. apply NoDup_Permutation.
  - apply seq_NoDup.
  - unfold groups. rewrite <- flat_map_concat_map. apply NoDup_flat_map; [apply seq_NoDup| |].
    + intros p _. apply NoDup_filter, seq_NoDup.
    + intros p p' x _ _ H1 H2. apply filter_In in H1, H2. destruct H1 as [_ H1], H2 as [_ H2]. apply Nat.eqb_eq in H1, H2. congruence.
  - intros x. unfold groups. rewrite <- flat_map_concat_map, in_flat_map. split.
    + intros Hx. apply in_seq in Hx. exists (nth x part 0). split.
      * apply in_seq. specialize (H (nth x part 0) ltac:(apply nth_In; lia)). lia.
      * apply filter_In. split; [apply in_seq; lia|apply Nat.eqb_refl].
    + intros (p & _ & Hx). apply filter_In in Hx. tauto.
Qed.

(** The statements of C38-C40 from the lemmas. *)
From Coq Require Import QArith Qcanon Sorting.Permutation Sorting.Sorted.
From Verif Require Import Base SDProofs SDProofs4 Sums SlaterCondon Nondet Ham Asci Constraint Dist DistProofs Mem MemProofs Spmv SparseSpec CsrView SpmvSpec CsrProofs SpmvProofs PSpmvProofs2 PSpmvProofs3 CooProofs SpmvGlue Sparse ConvSpec SparseProofs1 SparseProofs2 SparseProofs3 SparseProofs4 SparseProofs5 SparseProofs6 SparseProofs7 SparseProofs8.
Local Open Scope nat_scope.

(** ** C38 *)
Lemma c38_csr_to_coo A : csr_wf A -> exists B, coo_of_csr A = Ok B /\ coo_wf B /\
  coo_m B = csr_m A /\ coo_n B = csr_n A /\ coo_ind B = csr_ind A /\ length (coo_val B) = length (nzval A) /\
  StronglySorted le (coo_row B) /\
  forall i j, i < csr_m A -> coo_entry B i j = csr_entry A i j.
Proof.
  intros H. pose proof (coo_of_csr_ok A H) as E. eexists. split; [exact E|].
  destruct (coo_of_csr_triples A _ H E) as (W & M & N_ & I & T). split; [auto|]. split; [auto|]. split; [auto|]. split; [auto|]. split; [auto|]. split.
  - cbn [coo_row].
    assert (Q : forall m s, StronglySorted le (concat (map (fun i => repeat (i + csr_ind A) (length (csr_line A i))) (seq s m))) /\
      forall x, In x (concat (map (fun i => repeat (i + csr_ind A) (length (csr_line A i))) (seq s m))) -> s + csr_ind A <= x).
    { clear. induction m as [|m IH]; intros s; cbn [seq map concat]; [split; [constructor|intros x []]|].
      destruct (IH (S s)) as [I1 I2]. split.
      - induction (length (csr_line A s)) as [|k IHk]; cbn [repeat app]; auto. constructor; auto. apply Forall_forall. intros y Hy.
        apply in_app_or in Hy. destruct Hy as [Hy|Hy]; [apply repeat_spec in Hy; lia|specialize (I2 y Hy); lia].
      - intros x Hx. apply in_app_or in Hx. destruct Hx as [Hx|Hx]; [apply repeat_spec in Hx; lia|specialize (I2 x Hx); lia]. }
    apply Q.
  - intros i j Hi. apply (coo_of_csr_entry A _ i j H E Hi).
Qed.
Lemma c38_coo_to_csr A : coo_wf A -> StronglySorted le (coo_row A) ->
  (forall i, i < coo_m A -> exists j, coo_stored A i j = true) ->
  exists B, csr_of_coo A = Ok B /\ csr_wf B /\ csr_m B = coo_m A /\ csr_n B = coo_n A /\ csr_ind B = coo_ind A /\
    length (nzval B) = length (coo_val A) /\
    forall i j, i < coo_m A -> csr_entry B i j = coo_entry A i j.
Proof.
  intros H ST HR. eexists. split.
  - apply csr_of_coo_ok; auto. intros i Hi. destruct (HR i Hi) as (j & S1). apply existsb_exists in S1. destruct S1 as (t & Ht & E).
    exists t. split; auto. apply andb_prop in E. apply Nat.eqb_eq. tauto.
  - split; [apply rows_csr_wf, bucket_bound, H|]. split; [cbn; rewrite map_length, seq_length; auto|]. split; [auto|]. split; [auto|]. split.
    + cbn. rewrite map_length, concat_length, map_map.
      assert (LT : length (coo_val A) = length (coo_triples A)) by (rewrite (coo_triples_seq A H), map_length, seq_length; auto). rewrite LT.
      assert (HB := fun t Ht => triples_bound A t H Ht). clear -HB.
      assert (Q : forall m, (forall t, In t (coo_triples A) -> fst (fst t) < m) -> list_sum (map (fun x => length (bucket (coo_triples A) x)) (seq 0 m)) = length (coo_triples A)).
      { clear HB. intros m. induction (coo_triples A) as [|t T IH]; intros HB; cbn [length].
        - assert (Z : forall k s, list_sum (map (fun x => length (bucket [] x)) (seq s k)) = 0) by (induction k as [|k IHk]; intros s; [reflexivity|apply (IHk (S s))]). apply Z.
        - rewrite <- IH by (intros; apply HB; right; auto). specialize (HB t (or_introl eq_refl)).
          unfold bucket. cbn [filter].
          assert (Q1 : forall k s, list_sum (map (fun x => length (map (fun t0 : nat * nat * Qc => (snd (fst t0), snd t0)) (if fst (fst t) =? x then t :: filter (fun t0 => fst (fst t0) =? x) T else filter (fun t0 => fst (fst t0) =? x) T))) (seq s k)) =
             (if (s <=? fst (fst t)) && (fst (fst t) <? s + k) then 1 else 0) + list_sum (map (fun x => length (map (fun t0 : nat * nat * Qc => (snd (fst t0), snd t0)) (filter (fun t0 => fst (fst t0) =? x) T))) (seq s k))).
          { induction k as [|k IHk]; intros s.
            - cbn [seq map list_sum fold_right]. destruct (Nat.leb_spec s (fst (fst t))), (Nat.ltb_spec (fst (fst t)) (s + 0)); cbn; auto; lia.
            - cbn [seq map]. change (forall x l, list_sum (x :: l) = x + list_sum l) with (forall x l, list_sum (x :: l) = x + list_sum l).
              assert (LC : forall x l, list_sum (x :: l) = x + list_sum l) by reflexivity. rewrite !LC, IHk. rewrite !map_length.
              destruct (Nat.eqb_spec (fst (fst t)) s), (Nat.leb_spec s (fst (fst t))), (Nat.leb_spec (S s) (fst (fst t))), (Nat.ltb_spec (fst (fst t)) (s + S k)), (Nat.ltb_spec (fst (fst t)) (S s + k)); cbn [length andb]; lia. }
          rewrite Q1. destruct (Nat.leb_spec 0 (fst (fst t))), (Nat.ltb_spec (fst (fst t)) (0 + m)); cbn [andb]; lia. }
      apply Q. intros t Ht. apply HB, Ht.
    + intros i j Hi. rewrite rows_entry by (rewrite map_length, seq_length; auto). rewrite nth_map_seq by auto. rewrite bucket_entry. reflexivity.
Qed.
Lemma c38_unsorted A : ~ StronglySorted le (coo_row A) -> csr_of_coo A = Err Throw.
Proof.
  intros H. unfold csr_of_coo, is_sorted_by_row_index. destruct (is_sorted_ (coo_row A)) eqn:E; auto. exfalso. apply H. apply is_sorted_spec, E.
Qed.
Lemma c38_unsorted_csc A : ~ StronglySorted le (coo_col A) -> csc_of_coo A = Err Throw.
Proof.
  intros H. unfold csc_of_coo, is_sorted_by_col_index. destruct (is_sorted_ (coo_col A)) eqn:E; auto. exfalso. apply H. apply is_sorted_spec, E.
Qed.

(** sorting first *)
Lemma sort_then_csr A : coo_wf A -> (forall i, i < coo_m A -> exists j, coo_stored A i j = true) ->
  always (any SA <- sort_by_row_index A; Nondet.det (csr_of_coo SA)) (fun B => csr_wf B /\ csr_m B = coo_m A /\ csr_n B = coo_n A /\ csr_ind B = coo_ind A /\
    (forall i, i < coo_m A -> ordered_line (csr_line B i)) /\
    forall i j, i < coo_m A -> csr_entry B i j = coo_entry A i j).
Proof.
  intros H HR. eapply always_bind; [apply sort_rows_ok; auto|]. cbv beta. intros SA (W & M & N_ & I & P & ST).
  assert (SR : StronglySorted le (coo_row SA)).
  { apply (lex_le_fst _ (coo_col SA)); auto. destruct W as (L1 & L2 & _). lia. }
  assert (HR' : forall i, i < coo_m SA -> exists t, In t (coo_triples SA) /\ fst (fst t) = i).
  { intros i Hi. rewrite M in Hi. destruct (HR i Hi) as (j & S1). apply existsb_exists in S1. destruct S1 as (t & Ht & E).
    exists t. split; [apply (Permutation_in _ P); auto|]. apply andb_prop in E. apply Nat.eqb_eq. tauto. }
  pose proof (csr_of_coo_ok SA W SR HR') as E. eapply always_det; [exact E|].
  split; [apply rows_csr_wf, bucket_bound, W|]. split; [cbn; rewrite map_length, seq_length; auto|]. split; [auto|]. split; [auto|]. rewrite <- M. split.
  - intros i Hi. rewrite rows_line by (rewrite map_length, seq_length; auto). rewrite nth_map_seq by auto.
    unfold ordered_line, bucket. rewrite map_map. cbn [fst].
    destruct (triples_proj SA W) as (P1 & P2 & _). rewrite <- P1, <- P2, combine_map2 in ST. clear -ST.
    induction (coo_triples SA) as [|t T IH]; cbn [map filter]; [constructor|]. inversion_clear ST as [|? ? ST' F].
    destruct (Nat.eqb_spec (fst (fst t)) i) as [e|]; auto. cbn [map]. constructor; auto. rewrite Forall_forall in *. intros x Hx.
    apply in_map_iff in Hx. destruct Hx as (u & <- & Hu). apply filter_In in Hu. destruct Hu as [Hu Eu]. apply Nat.eqb_eq in Eu.
    specialize (F _ (in_map (fun t => (coo_ind SA + fst (fst t), coo_ind SA + snd (fst t))) _ _ Hu)). unfold lex_le in F. cbn [fst snd] in F. lia.
  - intros i j Hi. rewrite rows_entry by (rewrite map_length, seq_length; auto). rewrite nth_map_seq by auto. rewrite bucket_entry.
    symmetry. apply (coo_entry_perm A SA i j P).
Qed.

Lemma csc_rows_line ind m cols j : j < length cols -> csc_line (rows_csc ind m cols) j = nth j cols [].
Proof. intros Hj. exact (rows_line ind m cols j Hj). Qed.
Lemma csc_rows_wf ind m cols : (forall r, In r cols -> forall cv, In cv r -> fst cv < m) -> csc_wf (rows_csc ind m cols).
Proof. intros Hb. exact (rows_csr_wf ind m cols Hb). Qed.
Lemma c38_coo_to_csc A : coo_wf A -> coo_m A = coo_n A -> StronglySorted le (coo_col A) ->
  (forall j, j < coo_n A -> exists i, coo_stored A i j = true) ->
  exists B, csc_of_coo A = Ok B /\ csc_wf B /\ csc_m B = coo_m A /\ csc_n B = coo_n A /\ csc_ind B = coo_ind A /\
    forall i j, j < coo_n A -> csc_entry B i j = coo_entry A i j.
Proof.
  intros H SQ ST HR. eexists. split.
  - apply csc_of_coo_ok; auto. intros j Hj. destruct (HR j Hj) as (i & S1). apply existsb_exists in S1. destruct S1 as (t & Ht & E).
    exists t. split; auto. apply andb_prop in E. apply Nat.eqb_eq. tauto.
  - split; [apply csc_rows_wf|].
    { intros r Hr cv Hcv. apply in_map_iff in Hr. destruct Hr as (j & <- & _). unfold bucket in Hcv. apply in_map_iff in Hcv. destruct Hcv as (t & <- & Ht).
      apply filter_In in Ht. destruct Ht as [Ht _]. apply in_map_iff in Ht. destruct Ht as (u & <- & Hu). cbn. apply (triples_bound A u H Hu). }
    split; [auto|]. split; [cbn; rewrite map_length, seq_length; auto|]. split; [auto|].
    intros i j Hj. unfold csc_entry. rewrite csc_rows_line by (rewrite map_length, seq_length; auto). rewrite nth_map_seq by auto. rewrite bucket_entry.
    unfold tsum, coo_entry. rewrite sum_map. apply sum_ext. intros t _. unfold flip. cbn [fst snd].
    destruct (fst (fst t) =? i), (snd (fst t) =? j); reflexivity.
Qed.
Lemma c38_csc_to_csr A : csc_wf A -> exists B, csr_of_csc A = Ok B /\ csr_wf B /\
  csr_m B = csc_m A /\ csr_n B = csc_n A /\ csr_ind B = csc_ind A /\
  (forall i, i < csc_m A -> ordered_line (csr_line B i)) /\
  forall i j, i < csc_m A -> j < csc_n A -> csr_entry B i j = csc_entry A i j.
Proof.
  intros H. eexists. split; [apply csr_of_csc_ok; auto|].
  split; [apply rows_csr_wf; intros r Hr cv Hcv; apply (csc_bucket_bound _ _ _ _ _ _ H r Hr cv Hcv)|].
  split; [cbn; rewrite map_length, seq_length; auto|]. split; [auto|]. split; [auto|]. split.
  - intros i Hi. rewrite rows_line by (rewrite map_length, seq_length; auto). rewrite nth_map_seq by auto. apply csc_bucket_ordered.
  - intros i j Hi Hj. rewrite rows_entry by (rewrite map_length, seq_length; auto). rewrite nth_map_seq by auto.
    apply (csc_bucket_entry (csc_ind A) (csc_n A)); auto.
Qed.
Lemma c38_set_indexing A idx : csr_wf A -> exists B, set_indexing A idx = Ok B /\ csr_wf B /\ csr_ind B = idx /\
  csr_m B = csr_m A /\ csr_n B = csr_n A /\ forall i, i < csr_m A -> csr_line B i = csr_line A i.
Proof.
  intros H. eexists. split; [apply set_indexing_ok; auto|]. split; [apply rows_csr_wf, csr_rows_bound, H|]. split; [auto|].
  split; [apply csr_rows_len|]. split; [auto|]. intros i Hi. rewrite rows_line by (rewrite csr_rows_len; auto). apply csr_rows_nth; auto.
Qed.
Lemma c38_dense A D LD : csr_wf A ->
  (LD < csr_m A -> dense_of_csr A D LD = Err Throw) /\
  (csr_m A <= LD -> csr_n A * LD <= length D -> (forall i, i < csr_m A -> NoDup (map fst (csr_line A i))) ->
   exists D', dense_of_csr A D LD = Ok D' /\ length D' = length D /\
    (forall i j, i < csr_m A -> j < csr_n A ->
       nth (i + j * LD) D' 0%Qc = if stored (csr_line A i) j then csr_entry A i j else nth (i + j * LD) D 0%Qc) /\
    (forall p, (forall i j, i < csr_m A -> j < csr_n A -> p <> i + j * LD) -> nth p D' 0%Qc = nth p D 0%Qc)).
Proof.
  intros H. split; [|intros; apply dense_of_csr_ok; auto].
  intros L. unfold dense_of_csr. destruct (Nat.ltb_spec LD (csr_m A)); auto; lia.
Qed.
Lemma c38_dense_zero A LD : csr_wf A -> csr_m A <= LD -> (forall i, i < csr_m A -> NoDup (map fst (csr_line A i))) ->
  exists D', dense_of_csr A (repeat 0%Qc (csr_n A * LD)) LD = Ok D' /\
    forall i j, i < csr_m A -> j < csr_n A -> nth (i + j * LD) D' 0%Qc = csr_entry A i j.
Proof.
  intros H L ND. destruct (dense_of_csr_ok A (repeat 0%Qc (csr_n A * LD)) LD H L) as (D' & E & _ & R & _); auto; [rewrite repeat_length; auto|].
  exists D'. split; auto. intros i j Hi Hj. rewrite R by auto. destruct (stored (csr_line A i) j) eqn:S1; auto.
  rewrite nth_repeat. symmetry. unfold csr_entry. apply entry_none, S1.
Qed.

(** *** expansion of a triangle *)
Lemma is_lower_iff A : is_lower A = true <-> coo_upper A.
Proof. unfold is_lower, coo_upper. rewrite forallb_forall. split; intros H t Ht; [apply Nat.leb_le|apply Nat.leb_le]; auto. Qed.
Lemma is_upper_iff A : is_upper A = true <-> coo_lower A.
Proof. unfold is_upper, coo_lower. rewrite forallb_forall. split; intros H t Ht; [apply Nat.leb_le|apply Nat.leb_le]; auto. Qed.
Lemma c38_expand A : coo_wf A -> coo_m A = coo_n A -> (coo_upper A \/ coo_lower A) -> ~ (coo_upper A /\ coo_lower A) ->
  diagonal_count A = coo_n A ->
  exists B, expand_from_triangle A = Ok B /\ coo_wf B /\ coo_m B = coo_m A /\ coo_n B = coo_n A /\ coo_ind B = coo_ind A /\
    forall i j, coo_entry B i j = if i =? j then coo_entry A i j else (coo_entry A i j + coo_entry A j i)%Qc.
Proof.
  intros H SQ O NB DC. exists (expanded A). split.
  - rewrite (expand_run A H). fold (diagonal_count A).
    assert (E : negb (Bool.eqb (is_lower A) (is_upper A)) = true).
    { rewrite <- is_lower_iff, <- is_upper_iff in O, NB. destruct (is_lower A), (is_upper A); cbn; try reflexivity; exfalso; [apply NB; auto|destruct O; discriminate]. }
    rewrite E, DC, Nat.eqb_refl. destruct (Nat.ltb_spec (2 * length (coo_val A)) (coo_n A)) as [L|]; auto. exfalso.
    rewrite <- DC in L. unfold diagonal_count in L.
    assert (length (filter (fun t => fst (fst t) =? snd (fst t)) (coo_triples A)) <= length (coo_triples A)) by apply filter_length_le'.
    assert (length (coo_triples A) = length (coo_val A)) by (rewrite (coo_triples_seq A H), map_length, seq_length; auto). lia.
  - split; [apply expanded_wf; auto|]. do 3 (split; [auto|]). intros i j. apply expanded_entry; auto.
Qed.

Lemma c38_expand_unchanged A : coo_wf A -> (coo_upper A <-> coo_lower A) -> expand_from_triangle A = Ok A.
Proof.
  intros H O. rewrite (expand_run A H). rewrite <- is_lower_iff, <- is_upper_iff in O.
  destruct (is_lower A), (is_upper A); cbn; auto; exfalso; destruct O as [O1 O2]; [specialize (O1 eq_refl)|specialize (O2 eq_refl)]; discriminate.
Qed.
Lemma c38_expand_fails A : coo_wf A -> (coo_upper A \/ coo_lower A) -> ~ (coo_upper A /\ coo_lower A) ->
  diagonal_count A <> coo_n A -> exists e, expand_from_triangle A = Err e.
Proof.
  intros H O NB DC. rewrite (expand_run A H). fold (diagonal_count A).
  assert (E : negb (Bool.eqb (is_lower A) (is_upper A)) = true).
  { rewrite <- is_lower_iff, <- is_upper_iff in O, NB. destruct (is_lower A), (is_upper A); cbn; try reflexivity; exfalso; [apply NB; auto|destruct O; discriminate]. }
  rewrite E. destruct (2 * length (coo_val A) <? coo_n A); [eauto|]. destruct (Nat.eqb_spec (diagonal_count A) (coo_n A)); [contradiction|eauto].
Qed.

(** *** witnesses *)
Lemma c38_empty_row_ref : exists A B, coo_wf A /\ StronglySorted le (coo_row A) /\ csr_of_coo A = Ok B /\
  exists i j, i < coo_m A /\ j < coo_n A /\ csr_entry B i j <> coo_entry A i j.
Proof.
  exists (mk_coo 3 3 0 [0; 2] [0; 2] [1%Qc; inject 2]). eexists.
  split. { unfold coo_wf; cbn. split; auto. split; auto. split; intros x Hx; destruct Hx as [<-|[<-|[]]]; lia. }
  split. { repeat constructor. }
  split; [vm_compute; reflexivity|]. exists 2, 0. split; [cbn; lia|]. split; [cbn; lia|]. vm_compute. discriminate.
Qed.
Lemma c38_rect_ref : (exists A, coo_wf A /\ StronglySorted le (coo_col A) /\ (forall j, j < coo_n A -> exists i, coo_stored A i j = true) /\
    csc_of_coo A = Err Throw) /\
  (exists A B, coo_wf A /\ StronglySorted le (coo_col A) /\ (forall j, j < coo_n A -> exists i, coo_stored A i j = true) /\
    csc_of_coo A = Ok B /\ ~ csc_wf B).
Proof.
  split.
  - exists (mk_coo 3 2 0 [0; 1] [0; 1] [1%Qc; 1%Qc]).
    split. { unfold coo_wf; cbn. split; auto. split; auto. split; intros x Hx; destruct Hx as [<-|[<-|[]]]; lia. }
    split. { repeat constructor. }
    split. { cbn. intros j Hj. exists j. destruct j as [|[|j]]; [reflexivity|reflexivity|lia]. }
    vm_compute. reflexivity.
  - exists (mk_coo 2 3 0 [0; 1; 1] [0; 1; 2] [1%Qc; 1%Qc; 1%Qc]). eexists.
    split. { unfold coo_wf; cbn. split; auto. split; auto. split; intros x Hx; destruct Hx as [<-|[<-|[<-|[]]]]; lia. }
    split. { repeat constructor. }
    split. { cbn. intros j Hj. destruct j as [|[|[|j]]]; [exists 0|exists 1|exists 1|lia]; reflexivity. }
    split; [vm_compute; reflexivity|]. intros (_ & _ & _ & E & _). vm_compute in E. discriminate.
Qed.
Lemma c38_coo_dense_ref : exists A, coo_wf A /\ coo_ind A = 1 /\ coo_m A = 2 /\ coo_n A = 2 /\
  (exists D', dense_of_coo A (repeat 0%Qc 4) 2 (Ok D') /\ nth 0 D' 0%Qc <> coo_entry A 0 0) /\
  (exists A', coo_wf A' /\ coo_ind A' = 1 /\ coo_m A' = 2 /\ coo_n A' = 2 /\ dense_of_coo A' (repeat 0%Qc 4) 2 (Err UB)).
Proof.
  exists (mk_coo 2 2 1 [1] [1] [1%Qc]).
  split. { unfold coo_wf; cbn. split; auto. split; auto. split; intros x Hx; destruct Hx as [<-|[]]; lia. }
  do 3 (split; [reflexivity|]). split.
  - exists [0%Qc; 0%Qc; 0%Qc; 1%Qc]. split; [|vm_compute; discriminate]. exists [0]. split; [apply Permutation_refl|vm_compute; reflexivity].
  - exists (mk_coo 2 2 1 [2] [2] [1%Qc]).
    split. { unfold coo_wf; cbn. split; auto. split; auto. split; intros x Hx; destruct Hx as [<-|[]]; lia. }
    do 3 (split; [reflexivity|]). exists [0]. split; [apply Permutation_refl|vm_compute; reflexivity].
Qed.

(** ** C39 *)
Lemma c39_sub A lo up : csr_wf A -> fst lo <= fst up <= csr_m A -> snd lo <= snd up <= csr_n A ->
  (forall i, fst lo <= i < fst up -> ordered_line (csr_line A i)) ->
  exists B, extract_submatrix A lo up = Ok B /\ csr_wf B /\ csr_m B = fst up - fst lo /\ csr_n B = snd up - snd lo /\ csr_ind B = csr_ind A /\
    (forall i, i < fst up - fst lo -> ordered_line (csr_line B i)) /\
    forall i j, i < fst up - fst lo -> j < snd up - snd lo -> csr_entry B i j = csr_entry A (fst lo + i) (snd lo + j).
Proof.
  intros H HM HN HO. eexists. split; [apply extract_submatrix_ok; auto; lia|].
  split; [apply rows_csr_wf, sub_rows_bound|]. split; [cbn; unfold sub_rows; rewrite map_length, seq_length; auto|]. split; [auto|]. split; [auto|]. split.
  - intros i Hi. rewrite rows_line by (unfold sub_rows; rewrite map_length, seq_length; auto). unfold sub_rows. rewrite nth_map_seq by auto.
    specialize (HO (fst lo + i) ltac:(lia)). unfold ordered_line in *. rewrite map_map. cbn [fst]. unfold cut.
    apply ordered_filter with (p := inside (snd lo) (snd up)) in HO.
    rewrite <- (map_map fst (fun c => c - snd lo)). revert HO. apply sorted_map. intros; lia.
  - intros i j Hi Hj. rewrite rows_entry by (unfold sub_rows; rewrite map_length, seq_length; auto). unfold sub_rows. rewrite nth_map_seq by auto.
    unfold cut. rewrite entry_inside_shift by lia. destruct (Nat.ltb_spec j (snd up - snd lo)); [reflexivity|lia].
Qed.
Lemma c39_excl A lo up : csr_wf A -> fst lo <= fst up <= csr_m A -> snd lo <= snd up ->
  (forall i, fst lo <= i < fst up -> ordered_line (csr_line A i)) ->
  exists B, extract_submatrix_inclrow_exclcol A lo up = Ok B /\ csr_wf B /\ csr_m B = fst up - fst lo /\ csr_n B = csr_n A /\ csr_ind B = csr_ind A /\
    (forall i, i < fst up - fst lo -> ordered_line (csr_line B i)) /\
    forall i j, i < fst up - fst lo -> csr_entry B i j = if (snd lo <=? j) && (j <? snd up) then 0%Qc else csr_entry A (fst lo + i) j.
Proof.
  intros H HM HN HO. eexists. split; [apply extract_exclcol_ok; auto; lia|].
  split; [apply rows_csr_wf, excl_rows_bound; auto; lia|]. split; [cbn; unfold excl_rows; rewrite map_length, seq_length; auto|]. split; [auto|]. split; [auto|]. split.
  - intros i Hi. rewrite rows_line by (unfold excl_rows; rewrite map_length, seq_length; auto). unfold excl_rows. rewrite nth_map_seq by auto.
    apply ordered_filter. apply HO. lia.
  - intros i j Hi. rewrite rows_entry by (unfold excl_rows; rewrite map_length, seq_length; auto). unfold excl_rows. rewrite nth_map_seq by auto.
    apply entry_outside.
Qed.
Lemma c39_upper A : csr_wf A -> (forall i, i < csr_m A -> ordered_line (csr_line A i)) ->
  exists B, extract_upper_triangle A = Ok B /\ csr_wf B /\ csr_m B = csr_m A /\ csr_n B = csr_n A /\ csr_ind B = csr_ind A /\
    forall i j, i < csr_m A -> csr_entry B i j = if i <=? j then csr_entry A i j else 0%Qc.
Proof.
  intros H HO. eexists. split; [apply extract_upper_triangle_ok; auto|].
  split; [apply rows_csr_wf, upper_rows_bound; auto|]. split; [cbn; unfold upper_rows; rewrite map_length, seq_length; auto|]. split; [auto|]. split; [auto|].
  intros i j Hi. rewrite rows_entry by (unfold upper_rows; rewrite map_length, seq_length; auto). unfold upper_rows. rewrite nth_map_seq by auto. apply entry_upper.
Qed.
Lemma c39_diag A : csr_wf A -> (forall i, i < csr_m A -> NoDup (map fst (csr_line A i))) ->
  extract_diagonal_elements A = Ok (map (fun i => csr_entry A i i) (seq 0 (csr_m A))) /\
  trace A = Ok (sum (seq 0 (csr_m A)) (fun i => csr_entry A i i)).
Proof.
  intros H ND. split.
  - rewrite extract_diagonal_ok by auto. f_equal. apply map_ext_in. intros i Hi. apply in_seq in Hi. apply diag_entry, ND. lia.
  - rewrite trace_ok by auto. f_equal. apply sum_ext. intros i Hi. apply in_seq in Hi. apply diag_entry, ND. lia.
Qed.
Lemma c39_distribute A P : csr_wf A -> csr_n A = csr_m A -> 0 < P -> (forall i, i < csr_m A -> ordered_line (csr_line A i)) ->
  exists tiles, default_tiles (csr_m A) P = Ok tiles /\ length tiles = P /\
   forall r lo hi, nth_error tiles r = Some (lo, hi) ->
    exists D, dist_of_csr_default A P r = Ok D /\ dist_part (csr_m A) tiles r D /\
      forall i j, i < hi - lo -> j < csr_m A -> dist_entry D lo hi i j = csr_entry A (lo + i) j.
Proof.
  intros H SQ HP HO. destruct (c43_owner (csr_m A) P HP) as [(t & E & T & L) _]. exists t. split; auto. split; auto.
  intros r lo hi Hr. unfold dist_of_csr_default. rewrite E. cbn [bind].
  apply dist_of_csr_ok; auto. destruct (tiling_nth _ _ _ T r lo hi Hr) as (_ & X1 & X2). lia.
Qed.
Lemma c39_distribute_tiles A P tiles : csr_wf A -> csr_n A = csr_m A -> 0 < P -> length tiles = P -> tiling 0 (csr_m A) tiles ->
  (forall i, i < csr_m A -> ordered_line (csr_line A i)) ->
  forall r lo hi, nth_error tiles r = Some (lo, hi) ->
    exists D, dist_of_csr_tiles A P r tiles = Ok D /\ dist_part (csr_m A) tiles r D /\
      forall i j, i < hi - lo -> j < csr_m A -> dist_entry D lo hi i j = csr_entry A (lo + i) j.
Proof.
  intros H SQ HP HL T HO r lo hi Hr. unfold dist_of_csr_tiles. destruct (c43_custom (csr_m A) P tiles HP) as [_ CT]. rewrite CT by auto. cbn [bind].
  apply dist_of_csr_ok; auto. destruct (tiling_nth _ _ _ T r lo hi Hr) as (_ & X1 & X2). lia.
Qed.

(** ** C40 *)
Lemma c40_rows A p : csr_wf A -> is_perm (csr_m A) p ->
  always (permute_rows A p) (fun B => csr_wf B /\ csr_m B = csr_m A /\ csr_n B = csr_n A /\ csr_ind B = csr_ind A /\
    forall i, i < csr_m A -> csr_line B i = csr_line A (nth i p 0)).
Proof.
  intros H P. eapply always_weaken; [|apply permute_rows_ok; auto]. cbv beta. intros B ->.
  split; [apply rows_csr_wf|].
  { intros r Hr cv Hcv. unfold perm_rows in Hr. apply in_map_iff in Hr. destruct Hr as (i & <- & Hi). apply (perm_In _ _ i P) in Hi. apply (csr_line_In A i cv H Hi Hcv). }
  split; [cbn; apply perm_rows_len; auto|]. split; [auto|]. split; [auto|].
  intros i Hi. rewrite rows_line by (rewrite perm_rows_len; auto). apply perm_rows_nth; auto.
Qed.
Lemma c40_cols T A p : csr_wf A -> 0 < T -> is_perm (csr_n A) p ->
  always (permute_cols T A p) (fun B => csr_wf B /\ csr_m B = csr_m A /\ csr_n B = csr_n A /\ csr_ind B = csr_ind A /\
    (forall i, i < csr_m A -> length (csr_line B i) = length (csr_line A i) /\ ordered_line (csr_line B i)) /\
    forall i j, i < csr_m A -> j < csr_n A -> csr_entry B i j = csr_entry A i (nth j p 0)).
Proof.
  intros H HT P. destruct (invert_perm_ok _ _ P) as (q & E & HQ & Q1 & Q2).
  eapply always_weaken; [|apply (permute_cols_ok T A p q); auto]. cbv beta. intros B HB.
  destruct (permuted_props A B (seq 0 (csr_m A)) p q H (perm_id _) P HQ Q1 Q2 HB) as (W & M & N_ & I & LN & EN).
  do 4 (split; [auto|]). split.
  - intros i Hi. specialize (LN i Hi). rewrite seq_nth in LN by auto. exact LN.
  - intros i j Hi Hj. rewrite (EN i j Hi Hj), seq_nth by auto. reflexivity.
Qed.
Lemma c40_rows_cols T A rp cp : csr_wf A -> 0 < T -> is_perm (csr_m A) rp -> is_perm (csr_n A) cp ->
  always (permute_rows_cols T A rp cp) (fun B => csr_wf B /\ csr_m B = csr_m A /\ csr_n B = csr_n A /\ csr_ind B = csr_ind A /\
    (forall i, i < csr_m A -> length (csr_line B i) = length (csr_line A (nth i rp 0)) /\ ordered_line (csr_line B i)) /\
    forall i j, i < csr_m A -> j < csr_n A -> csr_entry B i j = csr_entry A (nth i rp 0) (nth j cp 0)).
Proof.
  intros H HT HR P. destruct (invert_perm_ok _ _ P) as (q & E & HQ & Q1 & Q2).
  eapply always_weaken; [|apply (permute_rows_cols_ok T A rp cp q); auto]. cbv beta. intros B HB.
  exact (permuted_props A B rp cp q H HR P HQ Q1 Q2 HB).
Qed.
(** permuting with the inverse permutations gives the matrix back *)
Lemma c40_round_trip T A rp cp rq cq : csr_wf A -> 0 < T -> is_perm (csr_m A) rp -> is_perm (csr_n A) cp ->
  invert_perm rp = Ok rq -> invert_perm cp = Ok cq ->
  always (any B <- permute_rows_cols T A rp cp; permute_rows_cols T B rq cq) (fun C => csr_wf C /\
    csr_m C = csr_m A /\ csr_n C = csr_n A /\
    forall i j, i < csr_m A -> j < csr_n A -> csr_entry C i j = csr_entry A i j).
Proof.
  intros H HT HR P E1 E2.
  destruct (invert_perm_ok _ _ HR) as (rq' & E1' & HRQ & R1 & R2). rewrite E1 in E1'. injection E1' as <-.
  destruct (invert_perm_ok _ _ P) as (cq' & E2' & HCQ & C1 & C2). rewrite E2 in E2'. injection E2' as <-.
  eapply always_bind; [apply (c40_rows_cols T A rp cp H HT HR P)|]. cbv beta. intros B (W & M & N_ & I & _ & EN).
  rewrite <- M in HRQ. rewrite <- N_ in HCQ.
  eapply always_weaken; [|apply (c40_rows_cols T B rq cq W HT HRQ HCQ)]. cbv beta. intros C (W' & M' & N' & _ & _ & EN').
  split; [auto|]. split; [congruence|]. split; [congruence|]. intros i j Hi Hj. rewrite EN' by congruence.
  rewrite M in HRQ. rewrite N_ in HCQ. rewrite EN by (apply perm_bound; auto). rewrite R2, C2 by auto. reflexivity.
Qed.
Lemma c40_part npart part : 0 < npart ->
  ((forall c, In c part -> c < npart) ->
    perm_from_part npart part = Ok (concat (map (members part) (seq 0 npart)), prefix_sums 0 (map (fun p => length (members part p)) (seq 0 npart))) /\
    is_perm (length part) (concat (map (members part) (seq 0 npart)))) /\
  (~ (forall c, In c part -> c < npart) -> perm_from_part npart part = Err Throw).
Proof.
  intros HN. pose proof (perm_from_part_run npart part HN) as E. split.
  - intros HB. assert (F : forallb (fun c => c <? npart) part = true) by (apply forallb_forall; intros c Hc; apply Nat.ltb_lt; auto).
    rewrite F in E. split; [rewrite E; unfold groups; rewrite map_map; reflexivity|]. apply groups_perm; auto.
  - intros HB. destruct (forallb (fun c => c <? npart) part) eqn:F; auto. exfalso. apply HB. intros c Hc. rewrite forallb_forall in F. apply Nat.ltb_lt; auto.
Qed.

(** a replicated matrix, distributed and multiplied *)
Lemma c42_replicated dbg A P v alpha' beta' : csr_wf A -> csr_n A = csr_m A -> 0 < P ->
  (forall i, i < csr_m A -> ordered_line (csr_line A i)) -> (Z.of_nat (csr_m A * P) < 2 ^ 31)%Z ->
  exists tiles As infos, default_tiles (csr_m A) P = Ok tiles /\ length As = P /\
    (forall r, r < P -> exists D, dist_of_csr_default A P r = Ok D /\ nth_error As r = Some D) /\
    generate_spmv_comm_info dbg As = Ok infos /\
    forall Vs AVs, length Vs = P -> length AVs = P ->
    (forall r lo hi, nth_error tiles r = Some (lo, hi) ->
       hi - lo <= length (nth r Vs []) /\ hi - lo <= length (nth r AVs []) /\
       forall p, p < hi - lo -> nth p (nth r Vs []) 0%Qc = v (lo + p)) ->
    always (pgespmv alpha' beta' (combine (combine (combine As Vs) AVs) infos))
      (fun out => forall r lo hi, nth_error tiles r = Some (lo, hi) ->
          forall i, i < hi - lo -> nth i (nth r out []) 0%Qc =
            (alpha' * sum (seq 0 (csr_m A)) (fun j => csr_entry A (lo + i)%nat j * v j) + beta' * nth i (nth r AVs []) 0%Qc)%Qc).
Proof.
  intros H SQ HP HO HZ.
  destruct (c39_distribute A P H SQ HP HO) as (tiles & Et & Lt & HD).
  destruct (default_tiles_ok (csr_m A) P HP) as (tiles' & Et' & _ & Tt). assert (tiles' = tiles) by congruence. subst tiles'.
  set (dflt := mk_dist 0 [] (mk_csr 0 0 0 [] [] []) None).
  set (As := map (fun r => match dist_of_csr_default A P r with Ok D => D | Err _ => dflt end) (seq 0 P)).
  assert (LA : length As = P) by (unfold As; rewrite map_length, seq_length; auto).
  assert (HA : forall r, r < P -> exists D lo hi, dist_of_csr_default A P r = Ok D /\ nth_error As r = Some D /\ nth_error tiles r = Some (lo, hi) /\
      dist_part (csr_m A) tiles r D /\ forall i j, i < hi - lo -> j < csr_m A -> dist_entry D lo hi i j = csr_entry A (lo + i) j).
  { intros r Hr. destruct (nth_error tiles r) as [[lo hi]|] eqn:Er; [|apply nth_error_None in Er; lia].
    destruct (HD r lo hi Er) as (D & ED & DP & DE). exists D, lo, hi. split; auto. split; auto.
    rewrite (nth_error_nth' As dflt) by lia. unfold As. rewrite nth_map_seq by auto. rewrite ED. reflexivity. }
  assert (DP : forall r A0, nth_error As r = Some A0 -> dist_part (csr_m A) tiles r A0).
  { intros r A0 E0. assert (Hr : r < P) by (rewrite <- LA; apply nth_error_Some; congruence).
    destruct (HA r Hr) as (D & lo & hi & _ & E1 & _ & DPr & _). congruence. }
  assert (HR : forall r A0, nth_error As r = Some A0 -> (Z.of_nat (received tiles A0) < 2 ^ 31)%Z).
  { intros r A0 _. assert (received tiles A0 <= csr_m A * P); [|lia].
    unfold received. etransitivity; [apply (list_sum_le _ (fun t => snd t - fst t)); intros; apply demand_le|].
    rewrite (tiles_total _ _ _ Tt). nia. }
  assert (HS : forall r t, nth_error tiles r = Some t -> (Z.of_nat (sent As t) < 2 ^ 31)%Z).
  { intros r t Er. assert (sent As t <= csr_m A * P); [|lia]. unfold sent.
    etransitivity; [apply (list_sum_le _ (fun _ => csr_m A))|].
    - intros x. etransitivity; [apply demand_le|]. destruct t as [lo hi]. destruct (tiling_nth _ _ _ Tt _ _ _ Er). cbn. lia.
    - rewrite <- LA. clearbody As. clear. induction As as [|x l IH]; cbn; [lia|]. unfold list_sum in IH. cbn in IH. nia. }
  assert (LAt : length As = length tiles) by congruence.
  pose proof (PSpmvProofs2.generate_ok (csr_m A) tiles As dflt Tt LAt DP HR HS dbg) as EI.
  remember (map (PSpmvProofs2.plan tiles As dflt) (seq 0 (length tiles))) as infos eqn:Einf. clear Einf.
  exists tiles, As, infos. do 2 (split; [auto|]). split.
  { intros r Hr. destruct (HA r Hr) as (D & lo & hi & E1 & E2 & _). eauto. }
  split; auto. intros Vs AVs LV LAV HV.
  destruct (c42 dbg (csr_m A) tiles As Vs AVs v alpha' beta' Tt) as (infos' & EI' & _ & AL); auto; try congruence.
  assert (infos' = infos) by congruence. subst infos'.
  eapply always_weaken; [|exact AL]. cbn beta. intros out (_ & F) r lo hi Er i Hi.
  assert (Hr : r < P) by (rewrite <- Lt; apply nth_error_Some; congruence).
  destruct (HA r Hr) as (D & lo' & hi' & _ & E1 & E2 & _ & DE).
  assert (lo' = lo /\ hi' = hi) as [-> ->] by (rewrite E2 in Er; inversion Er; auto).
  destruct (F r _ lo hi E1 Er) as (_ & F1 & _). rewrite F1 by auto. f_equal. f_equal.
  apply sum_ext. intros j Hj. apply in_seq in Hj. rewrite DE by lia. reflexivity.
Qed.

(** *** examples *)
Definition ex_csr : csr := mk_csr 3 3 1 [1; 3; 4; 6] [1; 3; 2; 1; 3] [1%Qc; inject 2; inject 3; inject 4; inject 5].
Lemma ex_csr_ok : csr_wf ex_csr /\ (forall i, i < csr_m ex_csr -> ordered_line (csr_line ex_csr i)) /\
  (forall i, i < csr_m ex_csr -> NoDup (map fst (csr_line ex_csr i))) /\
  is_perm (csr_m ex_csr) [2; 0; 1] /\ csr_entry ex_csr 2 0 = inject 4.
Proof.
  assert (OL : forall i, i < csr_m ex_csr -> sorted_line (csr_line ex_csr i)).
  { cbn. intros [|[|[|i]]] Hi; try lia; unfold sorted_line; vm_compute; repeat (constructor; auto). }
  split. { wf_tac. }
  split. { intros i Hi. specialize (OL i Hi). unfold sorted_line in OL. unfold ordered_line. rewrite <- (map_id (map fst (csr_line ex_csr i))). revert OL. apply sorted_map. intros; lia. }
  split. { intros i Hi. apply sorted_NoDup, OL, Hi. }
  split. { unfold is_perm. cbn. apply NoDup_Permutation; [apply (seq_NoDup 3 0)| |].
    - SlaterCondon.nodupx.
    - cbn. intros x. tauto. }
  vm_compute. reflexivity.
Qed.
Definition ex_coo : coo := mk_coo 3 3 1 [1; 1; 2; 3] [1; 3; 2; 3] [1%Qc; inject 2; inject 3; inject 4].
Lemma ex_coo_ok : coo_wf ex_coo /\ StronglySorted le (coo_row ex_coo) /\ coo_m ex_coo = coo_n ex_coo /\
  (forall i, i < coo_m ex_coo -> exists j, coo_stored ex_coo i j = true) /\
  (forall j, j < coo_n ex_coo -> exists i, coo_stored ex_coo i j = true) /\
  coo_upper ex_coo /\ ~ coo_lower ex_coo /\ diagonal_count ex_coo = coo_n ex_coo.
Proof.
  split. { unfold coo_wf; cbn. split; auto. split; auto. split; intros x Hx; repeat (destruct Hx as [<-|Hx]; [lia|]); destruct Hx. }
  split. { cbn. repeat constructor. }
  split; [reflexivity|].
  split. { cbn. intros i Hi. exists i. destruct i as [|[|[|i]]]; try reflexivity; lia. }
  split. { cbn. intros i Hi. exists i. destruct i as [|[|[|i]]]; try reflexivity; lia. }
  split. { intros t Ht. cbn in Ht. repeat (destruct Ht as [<-|Ht]; [cbn; lia|]). destruct Ht. }
  split. { intros L. specialize (L (0, 2, inject 2) ltac:(cbn; auto)). cbn in L. lia. }
  reflexivity.
Qed.
Lemma c39_ex : exists B, extract_submatrix ex_csr (1, 1) (3, 3) = Ok B /\ csr_entry B 1 1 = inject 5 /\
  trace ex_csr = Ok (inject 9).
Proof. eexists. split; [vm_compute; reflexivity|]. split; vm_compute; reflexivity. Qed.

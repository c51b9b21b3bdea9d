(** Proofs about the local sparse products. *)
From Coq Require Import QArith Qcanon Sorting.Permutation.
From Verif Require Import Base Sums Nondet Ham SparseSpec CsrView CsrProofs Dist Asci Constraint Collective Mem MemProofs Spmv.
Local Open Scope nat_scope.

Lemma seg_seq {A} (l : list A) a b d : a <= b -> b <= length l ->
  seg l a b = map (fun j => nth (a + j) l d) (seq 0 (b - a)).
Proof.
  intros H H'. unfold seg. apply (nth_ext' _ _ d).
  - rewrite firstn_length, skipn_length, map_length, seq_length. lia.
  - rewrite firstn_length, skipn_length. intros i Hi.
    rewrite nth_map_seq, nth_firstn, nth_skipn by lia. reflexivity.
Qed.
Lemma combine_map2 {A B C} (f : A -> B) (g : A -> C) l : combine (map f l) (map g l) = map (fun x => (f x, g x)) l.
Proof. induction l; cbn; congruence. Qed.
Lemma line_seq ind ptr idx val i :
  let a := nth i ptr 0 - ind in let b := nth (S i) ptr 0 - ind in
  a <= b -> b <= length idx -> length val = length idx ->
  line ind ptr idx val i = map (fun j => (nth (a + j) idx 0 - ind, nth (a + j) val 0%Qc)) (seq 0 (b - a)).
Proof.
  intros a b H H' HL. unfold line. fold a b.
  rewrite (seg_seq idx a b 0), (seg_seq val a b 0%Qc) by lia.
  rewrite map_map, combine_map2. reflexivity.
Qed.

(** pointers of a well-formed compressed matrix *)
Lemma ptr_mono ind m n ptr idx val : wf_compressed ind m n ptr idx val ->
  forall i j, i <= j <= m -> nth i ptr 0 <= nth j ptr 0.
Proof.
  intros (_ & _ & M & _) i j [H H']. induction H; auto. etransitivity; [apply IHle; lia|]. apply M. lia.
Qed.
Lemma ptr_range ind m n ptr idx val : wf_compressed ind m n ptr idx val ->
  forall i, i <= m -> ind <= nth i ptr 0 <= ind + length idx.
Proof.
  intros H i Hi. pose proof (ptr_mono _ _ _ _ _ _ H) as M.
  pose proof (M 0 i ltac:(lia)). pose proof (M i m ltac:(lia)).
  destruct H as (_ & E0 & _ & E1 & _). lia.
Qed.

Lemma line_In ind m n ptr idx val i cv : wf_compressed ind m n ptr idx val -> i < m ->
  In cv (line ind ptr idx val i) -> fst cv < n /\ In (ind + fst cv) idx.
Proof.
  intros H Hi. pose proof (ptr_range _ _ _ _ _ _ H i ltac:(lia)). pose proof (ptr_range _ _ _ _ _ _ H (S i) ltac:(lia)).
  pose proof (ptr_mono _ _ _ _ _ _ H i (S i) ltac:(lia)).
  destruct H as (_ & _ & _ & _ & HL & HC).
  rewrite line_seq by lia. intros Hcv. apply in_map_iff in Hcv. destruct Hcv as (j & <- & Hj).
  apply in_seq in Hj. cbn [fst].
  assert (X : In (nth (nth i ptr 0 - ind + j) idx 0) idx) by (apply nth_In; lia).
  pose proof (HC _ X). split; [lia|]. replace (ind + _) with (nth (nth i ptr 0 - ind + j) idx 0) by lia. exact X.
Qed.
Lemma csr_line_In A i cv : csr_wf A -> i < csr_m A -> In cv (csr_line A i) ->
  fst cv < csr_n A /\ In (csr_ind A + fst cv) (colind A).
Proof. intros H. apply (line_In _ _ _ _ _ _ _ _ H). Qed.

(** dot product of a row with a vector given by [v] *)
Lemma foldM_sum {X} (l : list X) (f : Qc -> X -> res Qc) (g : X -> Qc) : forall acc,
  (forall a x, In x l -> f a x = Ok (a + g x)%Qc) -> foldM l f acc = Ok (acc + sum l g)%Qc.
Proof.
  induction l as [|x l IH]; intros acc H; cbn [foldM sum].
  - f_equal. ring.
  - rewrite H by (left; auto). cbn [bind]. rewrite IH by (intros; apply H; right; auto). f_equal. ring.
Qed.

Lemma row_dot_ok A V LDV k i v : csr_wf A -> i < csr_m A ->
  (forall cv, In cv (csr_line A i) -> load V (k * LDV + fst cv) = Ok (v (fst cv))) ->
  row_dot A V LDV k i = Ok (sum (csr_line A i) (fun cv => (snd cv * v (fst cv))%Qc)).
Proof.
  intros H Hi HV. unfold row_dot.
  pose proof (ptr_range _ _ _ _ _ _ H i ltac:(lia)) as R1. pose proof (ptr_range _ _ _ _ _ _ H (S i) ltac:(lia)) as R2.
  pose proof (ptr_mono _ _ _ _ _ _ H i (S i) ltac:(lia)) as M1.
  pose proof H as (HL & _ & _ & _ & HL' & HC).
  rewrite (at_ok _ i 0) by lia. rewrite (at_ok _ (i + 1) 0) by lia. replace (i + 1) with (S i) by lia. cbn [bind].
  rewrite minus_ok by lia. cbn [bind]. rewrite minus_ok by lia. cbn [bind]. rewrite minus_ok by lia. cbn [bind].
  unfold csr_line in *. rewrite line_seq in * by lia. rewrite sum_map.
  rewrite (foldM_sum _ _ (fun j : nat => Qcmult (nth (nth i (rowptr A) 0 - csr_ind A + j) (nzval A) 0%Qc)
     (v (nth (nth i (rowptr A) 0 - csr_ind A + j) (colind A) 0 - csr_ind A)))).
  - f_equal. cbn [fst snd]. rewrite Qcplus_0_l. reflexivity.
  - intros a j Hj. pose proof Hj as Hj'. apply in_seq in Hj.
    rewrite (at_ok _ _ 0%Qc) by lia. cbn [bind]. rewrite (at_ok _ _ 0) by lia. cbn [bind].
    pose proof (HC (nth (nth i (rowptr A) 0 - csr_ind A + j) (colind A) 0) ltac:(apply nth_In; lia)).
    rewrite minus_ok by lia. cbn [bind].
    specialize (HV (nth (nth i (rowptr A) 0 - csr_ind A + j) (colind A) 0 - csr_ind A, nth (nth i (rowptr A) 0 - csr_ind A + j) (nzval A) 0%Qc)).
    cbn [fst] in HV. replace (k * LDV + nth _ _ 0 - csr_ind A) with (k * LDV + (nth (nth i (rowptr A) 0 - csr_ind A + j) (colind A) 0 - csr_ind A)) by lia.
    rewrite HV. { reflexivity. }
    apply in_map_iff. exists j. auto.
Qed.

(** summing over the stored elements of a line is summing over all columns *)
Lemma sum_line_entry l n v : (forall cv, In cv l -> fst cv < n) ->
  sum l (fun cv => snd cv * v (fst cv))%Qc = sum (seq 0 n) (fun j => entry l j * v j)%Qc.
Proof.
  intros H. unfold entry.
  rewrite (sum_ext (seq 0 n) _ (fun j => sum l (fun cv => if fst cv =? j then snd cv * v (fst cv) else 0)%Qc)).
  2:{ intros j _. rewrite <- sum_scale_r. apply sum_ext. intros cv _. destruct (Nat.eqb_spec (fst cv) j) as [->|]; ring. }
  rewrite sum_swap. apply sum_ext. intros cv Hcv. symmetry.
  rewrite (sum_single (seq 0 n) (fst cv)).
  - rewrite Nat.eqb_refl. reflexivity.
  - apply seq_NoDup.
  - apply in_seq. specialize (H _ Hcv). lia.
  - intros j _ Hj. destruct (Nat.eqb_spec (fst cv) j); congruence.
Qed.

Lemma loc_inj LDAV M k i k' i' : i < M -> i' < M -> (M <= LDAV \/ (k = 0 /\ k' = 0)) ->
  i + k * LDAV = i' + k' * LDAV -> k = k' /\ i = i'.
Proof.
  intros H H' [L|[-> ->]] E; [|lia]. 
  assert (k = k') by (apply Nat.le_antisymm; apply Nat.nlt_ge; intros X; nia). subst. lia.
Qed.

Lemma NoDup_map_on {A B} (f : A -> B) l : (forall x y, In x l -> In y l -> f x = f y -> x = y) -> NoDup l -> NoDup (map f l).
Proof.
  induction l as [|x l IH]; intros Hf ND; cbn; [constructor|]. apply NoDup_cons_iff in ND. destruct ND as [N1 N2].
  constructor.
  - intros H. apply in_map_iff in H. destruct H as (y & E & Hy). apply Hf in E; [subst; auto|right; auto|left; auto].
  - apply IH; auto. intros. apply Hf; auto; right; auto.
Qed.
Lemma NoDup_app2 {A} (l m : list A) : NoDup l -> NoDup m -> (forall x, In x l -> In x m -> False) -> NoDup (l ++ m).
Proof.
  induction 1 as [|x l Hx ND IH]; intros Hm D; cbn [app]; auto. constructor.
  - intros H. apply in_app_or in H. destruct H; auto. apply (D x); auto. left; auto.
  - apply IH; auto. intros y Hy. apply D. right; auto.
Qed.
Lemma NoDup_prod {A B} (l : list A) (m : list B) : NoDup l -> NoDup m -> NoDup (list_prod l m).
Proof.
  induction 1 as [|x l Hx ND IH]; intros Hm; cbn [list_prod]; [constructor|].
  apply NoDup_app2; auto.
  - apply NoDup_map_on; auto. congruence.
  - intros p Hp Hq. apply in_map_iff in Hp. destruct Hp as (y & <- & Hy). apply in_prod_iff in Hq. destruct Hq; auto.
Qed.

(** the CSR product, for an input whose relevant elements are readable *)
Lemma gespmbv_ok K alpha A V LDV beta AV LDAV (v : nat -> nat -> Qc) : csr_wf A ->
  (forall k i cv, k < K -> i < csr_m A -> In cv (csr_line A i) -> load V (k * LDV + fst cv) = Ok (v k (fst cv))) ->
  (csr_m A <= LDAV \/ K <= 1) -> (forall k, k < K -> k * LDAV + csr_m A <= length AV) ->
  always (gespmbv K alpha A V LDV beta AV LDAV) (fun AV' => length AV' = length AV /\
    (forall k i, k < K -> i < csr_m A -> nth (i + k * LDAV) AV' 0%Qc =
       (alpha * sum (seq 0 (csr_n A)) (fun j => csr_entry A i j * v k j) + beta * nth (i + k * LDAV) AV 0)%Qc) /\
    (forall p, (forall k i, k < K -> i < csr_m A -> p <> i + k * LDAV) -> nth p AV' 0%Qc = nth p AV 0%Qc)).
Proof.
  intros H HV HD HB. unfold gespmbv.
  eapply always_weaken; [|apply (parallel_cells 0%Qc _ (fun ki => snd ki + fst ki * LDAV)
    (fun ki y => (alpha * sum (seq 0 (csr_n A)) (fun j => csr_entry A (snd ki) j * v (fst ki) j) + beta * y)%Qc)
    _ _ (length AV)); auto].
  - cbn beta. intros AV' (L & R & U). split; auto. split.
    + intros k i Hk Hi. specialize (R (k, i)). cbn [fst snd] in R. apply R. apply in_prod; apply in_seq; lia.
    + intros p Hp. apply U. intros X. apply in_map_iff in X. destruct X as ([k i] & <- & X).
      apply in_prod_iff in X. rewrite !in_seq in X. apply (Hp k i); cbn; lia.
  - apply NoDup_map_on; [|apply NoDup_prod; apply seq_NoDup].
    intros [k i] [k' i'] Hx Hy E. apply in_prod_iff in Hx, Hy. rewrite !in_seq in Hx, Hy. cbn [fst snd] in E.
    destruct (loc_inj LDAV (csr_m A) k i k' i') as [-> ->]; auto; try lia.
  - intros [k i] Hx. apply in_prod_iff in Hx. rewrite !in_seq in Hx. cbn [fst snd]. specialize (HB k ltac:(lia)). lia.
  - intros s [k i] Hx L. apply in_prod_iff in Hx. rewrite !in_seq in Hx. cbn [fst snd].
    rewrite (row_dot_ok A V LDV k i (v k)) by (auto; try lia; intros; apply (HV k i); auto; lia). cbn [bind].
    specialize (HB k ltac:(lia)).
    rewrite (at_ok _ _ 0%Qc) by lia. cbn [bind]. rewrite put_ok by lia. f_equal. f_equal. f_equal. f_equal.
    unfold csr_entry. apply sum_line_entry. intros cv Hcv. apply (csr_line_In A i cv); auto. lia.
Qed.

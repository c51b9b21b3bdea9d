(** Lemmas for C70. *)
From Coq Require Import QArith Qcanon.
From Verif Require Import Base Sums Ham Asci Mem MemProofs SparseSpec CsrView CsrProofs SpmvProofs Sparse SparseProofs1 Graph GraphSpec.
Local Open Scope nat_scope.

Fixpoint drop_first (x : nat) (l : list nat) : list nat := match l with [] => [] | y :: r => if y =? x then r else y :: drop_first x r end.
Lemma find_cut ind x l : firstn (find_ (x + ind) (map (fun c => ind + c) l)) (map (fun c => ind + c) l) ++ skipn (find_ (x + ind) (map (fun c => ind + c) l) + 1) (map (fun c => ind + c) l) = map (fun c => ind + c) (drop_first x l) /\
  (if find_ (x + ind) (map (fun c => ind + c) l) =? length l then skipn (find_ (x + ind) (map (fun c => ind + c) l) + 1) (map (fun c => ind + c) l) = [] /\ length (drop_first x l) = length l else S (length (drop_first x l)) = length l).
Proof.
  unfold find_, find_if. induction l as [|y l (IH1 & IH2)]; [split; [reflexivity|split; reflexivity]|]. cbn [map prefix_length drop_first length].
  replace (ind + y =? x + ind) with (y =? x) by (destruct (Nat.eqb_spec y x), (Nat.eqb_spec (ind + y) (x + ind)); try reflexivity; lia).
  destruct (y =? x) eqn:E; cbn [negb].
  - split; [reflexivity|]. cbn [Nat.eqb]. reflexivity.
  - cbn [firstn skipn app Nat.add map]. split; [rewrite IH1; reflexivity|]. cbn [Nat.eqb]. destruct (_ =? length l); cbn [length]; [destruct IH2 as (A & B); split; [exact A|lia]|lia].
Qed.
Lemma drop_first_filter x l : NoDup l -> drop_first x l = filter (fun c => negb (c =? x)) l.
Proof.
  induction l as [|y l IH]; intros H; [reflexivity|]. inversion H as [|? ? NI ND]; subst. cbn. destruct (Nat.eqb_spec y x) as [->|ne]; cbn [negb].
  - symmetry. clear IH H ND. induction l as [|z l IH]; [reflexivity|]. cbn. destruct (Nat.eqb_spec z x) as [->|]; [exfalso; apply NI; left; reflexivity|]. cbn. rewrite IH; [reflexivity|]. intros I. apply NI. right. exact I.
  - rewrite IH by exact ND. reflexivity.
Qed.
Lemma in_drop_first x l c : In c (drop_first x l) -> In c l.
Proof. induction l as [|y l IH]; [intros []|]. cbn. destruct (y =? x); [right; assumption|]. intros [->|I]; [left; reflexivity|right; apply IH; exact I]. Qed.
Definition kept (A : csr) (i : nat) : list nat := drop_first i (stored A i).
Definition total (A : csr) (k : nat) : list nat := concat (map (kept A) (seq 0 k)).
Lemma total_S A k : total A (S k) = total A k ++ kept A k.
Proof. unfold total. rewrite seq_S, map_app, concat_app. cbn. rewrite app_nil_r. reflexivity. Qed.
Lemma total_split A n i : i < n -> exists rest, total A n = total A i ++ kept A i ++ rest.
Proof.
  intros H. unfold total. exists (concat (map (kept A) (seq (S i) (n - S i)))). replace n with (i + S (n - S i)) at 1 by lia. rewrite seq_app, map_app, concat_app. cbn. reflexivity.
Qed.
Lemma adjacency_ok A ret : csr_wf A -> exists xadj, extract_adjacency A ret = Ok (xadj, map (fun c => c + ret) (total A (csr_m A))) /\ length xadj = csr_m A + 1 /\
  forall j, j <= csr_m A -> nth j xadj 0 = ret + length (total A j).
Proof.
  intros H. unfold extract_adjacency. rewrite put_ok by (rewrite repeat_length; lia). cbn [bind].
  match goal with |- context [foldM _ ?f ?z] => destruct (foldM_seq f (fun k s => let '(rp, ci, nd) := s in length rp = csr_m A + 1 /\ (forall j, j <= k -> nth j rp 0 = ret + length (total A j)) /\ ci = map (fun c => csr_ind A + c) (total A k) /\ length ci + nd = nth k (rowptr A) 0 - csr_ind A) 0 (csr_m A) z) as ([[rp ci] nd] & E & L & RP & CI & ND) end.
  - rewrite upd_length, repeat_length. split; [reflexivity|]. split; [|split; [reflexivity|]].
    + intros j Hj. replace j with 0 by lia. rewrite upd_nth by (rewrite repeat_length; lia). cbn. lia.
    + destruct H as (_ & Z & _). rewrite Z. cbn. lia.
  - intros k [[rp ci] nd] Hk (L & RP & CI & ND). rewrite row_range_ok by (assumption || lia). cbn [bind]. rewrite row_cols by (assumption || lia). cbn [bind].
    assert (ES : map (fun cv => csr_ind A + fst cv) (csr_line A k) = map (fun c => csr_ind A + c) (stored A k)) by (unfold stored; rewrite map_map; reflexivity). rewrite ES.
    destruct (find_cut (csr_ind A) k (stored A k)) as (F1 & F2). set (d := find_ (k + csr_ind A) (map (fun c => csr_ind A + c) (stored A k))) in *. rewrite map_length.
    rewrite (at_ok rp k 0) by lia. cbn [bind]. destruct (row_bounds A k H ltac:(lia)) as (B1 & B2 & _ & B4). assert (LS : length (stored A k) = length (csr_line A k)) by apply map_length.
    pose proof (ptr_range _ _ _ _ _ _ H k ltac:(lia)) as PR. pose proof (ptr_range _ _ _ _ _ _ H (S k) ltac:(lia)) as PR'.
    destruct (d =? length (stored A k)) eqn:ED; cbn [negb].
    + destruct F2 as (F2 & F3). rewrite put_ok by lia. cbn [bind]. eexists. split; [reflexivity|]. cbv beta iota. rewrite upd_length. split; [exact L|]. split; [|split].
      * intros j Hj. rewrite upd_nth by lia. destruct (Nat.eqb_spec j (k + 1)) as [->|ne]; [|apply RP; lia]. rewrite RP by lia. rewrite Nat.add_1_r, total_S, app_length. fold (kept A k) in F3. lia.
      * rewrite F2, app_nil_r in F1. rewrite F1, CI, total_S, map_app. reflexivity.
      * rewrite F2, app_nil_r in F1. rewrite F1, app_length, map_length, F3. lia.
    + rewrite put_ok by lia. cbn [bind]. eexists. split; [reflexivity|]. cbv beta iota. rewrite upd_length. split; [exact L|]. split; [|split].
      * intros j Hj. rewrite upd_nth by lia. destruct (Nat.eqb_spec j (k + 1)) as [->|ne]; [|apply RP; lia]. rewrite RP by lia. rewrite Nat.add_1_r, total_S, app_length. fold (kept A k) in F2. lia.
      * rewrite <- app_assoc, F1, CI, total_S, map_app. reflexivity.
      * rewrite <- app_assoc, F1, app_length, map_length. lia.
  - rewrite E. cbn [bind]. rewrite Nat.add_0_l in *. destruct H as (H1 & H2 & H3 & H4 & H5 & H6). rewrite H4 in ND.
    destruct (Nat.ltb_spec (length (colind A)) (length ci)); [lia|]. replace (length (colind A) - nd) with (length ci) by lia. rewrite firstn_app, firstn_all, Nat.sub_diag. cbn [firstn]. rewrite app_nil_r.
    assert (MM : mapM (fun c => minus_ (c + ret) (csr_ind A)) ci = Ok (map (fun c => c + ret) (total A (csr_m A)))).
    { rewrite CI. generalize (total A (csr_m A)) as l. induction l as [|c l IH]; [reflexivity|]. cbn [map mapM]. rewrite minus_ok by lia. cbn [bind]. rewrite IH. cbn [bind]. do 2 f_equal. lia. }
    rewrite MM. cbn [bind]. exists rp. split; [reflexivity|]. split; [exact L|exact RP].
Qed.
Lemma stored_bound A i c : csr_wf A -> i < csr_m A -> In c (stored A i) -> c < csr_n A.
Proof.
  intros H Hi I. pose proof (row_cols A i H Hi) as R. destruct (row_bounds A i H Hi) as (B1 & B2 & _). rewrite slice_ok in R by assumption. injection R as R.
  assert (J : In (csr_ind A + c) (colind A)). { assert (J : In (csr_ind A + c) (map (fun cv => csr_ind A + fst cv) (csr_line A i))) by (unfold stored in I; apply in_map_iff in I; destruct I as (cv & <- & I); apply in_map_iff; exists cv; split; [reflexivity|exact I]).
    rewrite <- R in J. rewrite <- (firstn_skipn (nth i (rowptr A) 0 - csr_ind A) (colind A)). apply in_or_app. right. revert J. generalize (skipn (nth i (rowptr A) 0 - csr_ind A) (colind A)) as l. intros l J. rewrite <- (firstn_skipn (nth (S i) (rowptr A) 0 - csr_ind A - (nth i (rowptr A) 0 - csr_ind A)) l). apply in_or_app. left. exact J. }
  destruct H as (_ & _ & _ & _ & _ & H6). specialize (H6 _ J). lia.
Qed.
Lemma adjacency A ret : csr_wf A -> no_repeats A -> exists xadj adjncy, extract_adjacency A ret = Ok (xadj, adjncy) /\ adjacency_lists ret (csr_m A) (csr_n A) xadj adjncy /\
  forall i, i < csr_m A -> neighbours ret xadj adjncy i = filter (fun c => negb (c =? i)) (stored A i).
Proof.
  intros H NR. destruct (adjacency_ok A ret H) as (xadj & E & L & X). exists xadj, (map (fun c => c + ret) (total A (csr_m A))). split; [exact E|]. split; [split; [exact L|]; split; [rewrite X by lia; cbn; lia|]; split; [|split]|].
  - intros i Hi. rewrite !X by lia. rewrite total_S, app_length. lia.
  - rewrite X by lia. rewrite map_length. reflexivity.
  - intros c I. apply in_map_iff in I. destruct I as (d & <- & I). unfold total in I. apply in_concat in I. destruct I as (r & Ir & I). apply in_map_iff in Ir. destruct Ir as (i & <- & Hi). apply in_seq in Hi. apply in_drop_first in I. pose proof (stored_bound A i d H ltac:(lia) I). lia.
  - intros i Hi. unfold neighbours. rewrite !X by lia. rewrite <- drop_first_filter by (apply NR; exact Hi). destruct (total_split A (csr_m A) i Hi) as (rest & T). rewrite T, total_S, app_length. unfold seg.
    replace (ret + (length (total A i) + length (kept A i)) - ret - (ret + length (total A i) - ret)) with (length (kept A i)) by lia. replace (ret + length (total A i) - ret) with (length (total A i)) by lia.
    rewrite !map_app. rewrite skipn_app, map_length, Nat.sub_diag. rewrite skipn_all2 by (rewrite map_length; lia). cbn [skipn app]. rewrite firstn_app, map_length, Nat.sub_diag. cbn [firstn]. rewrite app_nil_r, firstn_all2 by (rewrite map_length; lia). rewrite map_map. change (drop_first i (stored A i)) with (kept A i).
    rewrite <- (map_id (kept A i)) at 2. apply map_ext. intros c. lia.
Qed.
Lemma adjacency_size A ret : csr_wf A -> no_repeats A -> exists xadj adjncy, extract_adjacency A ret = Ok (xadj, adjncy) /\
  length adjncy + length (filter (fun i => existsb (Nat.eqb i) (stored A i)) (seq 0 (csr_m A))) = length (colind A).
Proof.
  intros H NR. destruct (adjacency_ok A ret H) as (xadj & E & L & X). exists xadj, (map (fun c => c + ret) (total A (csr_m A))). split; [exact E|]. rewrite map_length.
  assert (G : forall k, k <= csr_m A -> length (total A k) + length (filter (fun i => existsb (Nat.eqb i) (stored A i)) (seq 0 k)) = nth k (rowptr A) 0 - csr_ind A).
  { induction k as [|k IH]; intros Hk; [destruct H as (_ & Z & _); rewrite Z; cbn; lia|]. rewrite total_S, app_length, seq_S, filter_app, app_length. specialize (IH ltac:(lia)). destruct (row_bounds A k H ltac:(lia)) as (B1 & B2 & _ & B4). assert (LS : length (stored A k) = length (csr_line A k)) by apply map_length.
    assert (D : length (kept A k) + (if existsb (Nat.eqb k) (stored A k) then 1 else 0) = length (stored A k)).
    { unfold kept. generalize (stored A k) as l. induction l as [|y l IHl]; [reflexivity|]. cbn. rewrite (Nat.eqb_sym k y). destruct (y =? k); cbn; [lia|]. lia. }
    cbn [Nat.add filter]. destruct (existsb (Nat.eqb k) (stored A k)); cbn [length]; lia. }
  specialize (G (csr_m A) (le_n _)). destruct H as (_ & _ & _ & Z & _). rewrite Z in G. lia.
Qed.
Lemma graph_symmetric A ret : csr_wf A -> no_repeats A -> symmetric_pattern A -> exists xadj adjncy, extract_adjacency A ret = Ok (xadj, adjncy) /\
  (forall i, i < csr_m A -> ~ In i (neighbours ret xadj adjncy i) /\ NoDup (neighbours ret xadj adjncy i)) /\
  (forall i j, i < csr_m A -> j < csr_m A -> (In j (neighbours ret xadj adjncy i) <-> In i (neighbours ret xadj adjncy j))).
Proof.
  intros H NR SP. destruct (adjacency A ret H NR) as (xadj & adj & E & _ & NB). exists xadj, adj. split; [exact E|]. split.
  - intros i Hi. rewrite NB by exact Hi. split; [|apply NoDup_filter, NR; exact Hi]. intros I. apply filter_In in I. destruct I as (_ & I). rewrite Nat.eqb_refl in I. discriminate.
  - intros i j Hi Hj. rewrite !NB by assumption. rewrite !filter_In. rewrite (SP i j Hi Hj). rewrite (Nat.eqb_sym i j). reflexivity.
Qed.
Lemma kway metis npart A : csr_wf A -> no_repeats A -> ((npart < 2)%Z -> kway_partition metis npart A = Err Throw) /\
  ((2 <= npart)%Z -> exists xadj adjncy, kway_partition metis npart A = metis (csr_m A) npart xadj adjncy /\ adjacency_lists 0 (csr_m A) (csr_n A) xadj adjncy /\
    forall i, i < csr_m A -> neighbours 0 xadj adjncy i = filter (fun c => negb (c =? i)) (stored A i)).
Proof.
  intros H NR. destruct (adjacency A 0 H NR) as (xadj & adj & E & AL & NB). unfold kway_partition. rewrite E. cbn [bind]. split; intros Hn.
  - destruct (Z.ltb_spec npart 2); [reflexivity|lia].
  - exists xadj, adj. destruct (Z.ltb_spec npart 2); [lia|]. split; [reflexivity|]. split; assumption.
Qed.
(** ** cases *)
Definition gx : csr := mk_csr 3 3 1 [1; 3; 6; 8] [1; 2; 1; 2; 3; 2; 3] (repeat 1%Qc 7).
Definition gd : csr := mk_csr 1 1 0 [0; 2] [0; 0] [1%Qc; 1%Qc].
Lemma gx_ok : csr_wf gx /\ no_repeats gx /\ symmetric_pattern gx /\ extract_adjacency gx 0 = Ok ([0; 1; 3; 4], [1; 0; 2; 1]).
Proof.
  split; [split; [reflexivity|]; split; [reflexivity|]; split; [intros [|[|[|i]]] Hi; cbn in *; lia|]; split; [reflexivity|]; split; [reflexivity|]; intros c I; cbn in *; lia|].
  split; [intros [|[|[|i]]] Hi; cbn in Hi; try lia; cbn; (constructor; [cbn; lia|]; constructor; [cbn; lia|]; try (constructor; [cbn; lia|]); constructor)|].
  split; [intros [|[|[|i]]] [|[|[|j]]] Hi Hj; cbn in Hi, Hj; try lia; cbn; lia|]. vm_compute. reflexivity.
Qed.
Lemma repeated_diagonal : exists A xadj adjncy, csr_wf A /\ extract_adjacency A 0 = Ok (xadj, adjncy) /\ In 0 (neighbours 0 xadj adjncy 0).
Proof.
  exists gd, [0; 1], [0]. split; [split; [reflexivity|]; split; [reflexivity|]; split; [intros [|i] Hi; cbn in *; lia|]; split; [reflexivity|]; split; [reflexivity|]; intros c I; cbn in *; lia|]. split; [vm_compute; reflexivity|]. left. reflexivity.
Qed.

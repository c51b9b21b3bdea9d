(** C44: statements with explicit hypotheses, witnesses and examples. *)
From Coq Require Import Ascii String QArith Qcanon ZArith NArith Bool Lia Sorting.Permutation Sorting.Sorted.
From Verif Require Import Base Sums Nondet Ham Asci Mem MemProofs Spmv SparseSpec CsrView SpmvSpec CsrProofs SpmvProofs DistProofs
  Sparse ConvSpec SparseProofs1 SparseProofs4 SparseGlue SpmvGlue Text TextProofs IO IOSpec IOProofs IOGlue SparseIO SparseIOSpec SparseIOProofs SparseIOProofs2 SparseIOProofs3.
Local Open Scope nat_scope.

Lemma c44_dist_thm show rnd M b tiles parts :
  tiling 0 M tiles -> List.length parts = List.length tiles ->
  (forall r A, nth_error parts r = Some A -> dist_part M tiles r A /\ csr_ind (d_diag A) = 0) ->
  (N.of_nat M + 1 < 2 ^ 63)%N -> (N.of_nat (list_sum (map local_nnz parts)) < 2 ^ 63)%N ->
  (forall A v, In A parts -> In v (nzval (d_diag A)) \/ (exists B, d_off A = Some B /\ In v (nzval B)) -> reads_back show rnd v) ->
  (b = 1 \/ list_sum (map local_nnz parts) = 0 /\ b = 0 \/
    b = 0 /\ exists r A lo hi i j, nth_error parts r = Some A /\ nth_error tiles r = Some (lo, hi) /\ i < hi - lo /\
      dist_stored A lo i j = true /\ (lo + i = 0 \/ j = 0)) ->
  exists file, write_dist_mm show M M parts (Some b) = Ok file /\
    always (read_mm_coo rnd file) (fun C => coo_wf C /\ coo_m C = M /\ coo_n C = M /\
      forall r A lo hi i j, nth_error parts r = Some A -> nth_error tiles r = Some (lo, hi) -> i < hi - lo -> j < M ->
        coo_entry C (lo + i) j = dist_entry A lo hi i j).
Proof. intros. apply c44_dist; auto. eapply detects_dist; eauto. Qed.

(** one element on the diagonal, away from row and column 0 *)
Definition corner : csr := mk_csr 2 2 0 [0; 0; 1] [1] [1%Qc].
Definition unit1 : csr := mk_csr 2 2 1 [1; 2; 3] [1; 2] [1%Qc; 1%Qc].
Ltac wf_csr := unfold csr_wf, wf_compressed; cbn; repeat split; try lia;
  intros; repeat match goal with H : _ \/ _ |- _ => destruct H as [<-|H] end; try lia; try contradiction.
Lemma corner_wf : csr_wf corner.
Proof. wf_csr. destruct i as [|[|i]]; cbn; lia. Qed.
Lemma unit1_wf : csr_wf unit1.
Proof. wf_csr. destruct i as [|[|i]]; cbn; lia. Qed.
Lemma default_run show A : csr_wf A -> write_mm show A false None =
  Ok (write_mm_header (csr_m A) (csr_n A) (List.length (nzval A)) false ++
      flat_map (fun e => mm_text show e ++ [nl]) (block_elements A 0 (csr_ind A))).
Proof. intros H. unfold write_mm. rewrite (block_run show A 0 (csr_ind A)) by (auto; lia). reflexivity. Qed.
Lemma number_lt n : n <= 100 -> (N.of_nat n < 2 ^ 63)%N.
Proof. intros H. apply N.le_lt_trans with 100%N; [lia|reflexivity]. Qed.
Lemma coo_of_list {m n ind r c v} l : combine (combine (coo_row (mk_coo m n ind r c v)) (coo_col (mk_coo m n ind r c v))) (coo_val (mk_coo m n ind r c v)) = l ->
  coo_triples (mk_coo m n ind r c v) = map (fun e => (fst (fst e) - ind, snd (fst e) - ind, snd e)) l.
Proof.
  intros <-. unfold coo_triples. cbn [coo_row coo_col coo_val coo_ind]. revert c v. induction r as [|x r IH]; intros [|y c] [|z v]; cbn; auto. f_equal. apply IH.
Qed.
Lemma c44_base_ref show rnd : reads_back show rnd 1%Qc ->
  exists A file, csr_wf A /\ csr_entry A 1 1 = 1%Qc /\ csr_entry A 0 0 = 0%Qc /\ write_mm show A false None = Ok file /\
    always (read_mm_coo rnd file) (fun C => coo_entry C 1 1 = 0%Qc /\ coo_entry C 0 0 = 1%Qc).
Proof.
  intros R. exists corner. eexists. split; [exact corner_wf|]. split; [reflexivity|]. split; [reflexivity|]. split; [apply default_run, corner_wf|].
  change (block_elements corner 0 (csr_ind corner)) with [(1, 1, 1%Qc)].
  eapply always_weaken; [|apply (c44_read rnd _ false 2 2 [(1, 1, 1%Qc)])]; [| |discriminate].
  - cbv beta. intros C (_ & _ & I & T). change (mirrored false [(1, 1, 1%Qc)]) with [(1, 1, 1%Qc)] in *. change (base_of [(1, 1, 1%Qc)]) with 1 in I.
    destruct C as [m n ind r c v]. apply coo_of_list in T. cbn [coo_ind] in I. subst ind. unfold coo_entry. rewrite T. split; reflexivity.
  - apply file_ok; try (apply number_lt; cbn; lia). intros e [<-|[]]. cbn [fst snd]. split; [apply number_lt; lia|]. split; [apply number_lt; lia|]. apply R.
Qed.
Lemma c44_onebased_ref show rnd : reads_back show rnd 1%Qc ->
  exists A file, csr_wf A /\ csr_ind A = 1 /\ write_mm show A false None = Ok file /\
    always (read_mm_coo rnd file) (fun C => ~ coo_wf C /\ csr_entry A 0 0 = 1%Qc /\ coo_entry C 0 0 = 0%Qc /\ csr_entry A 0 1 = 0%Qc /\ coo_entry C 0 1 = 1%Qc).
Proof.
  intros R. exists unit1. eexists. split; [exact unit1_wf|]. split; [reflexivity|]. split; [apply default_run, unit1_wf|].
  change (block_elements unit1 0 (csr_ind unit1)) with [(0, 1, 1%Qc); (1, 2, 1%Qc)].
  eapply always_weaken; [|apply (c44_read rnd _ false 2 2 [(0, 1, 1%Qc); (1, 2, 1%Qc)])]; [| |discriminate].
  - cbv beta. intros C (_ & HN & I & T). change (mirrored false [(0, 1, 1%Qc); (1, 2, 1%Qc)]) with [(0, 1, 1%Qc); (1, 2, 1%Qc)] in *.
    change (base_of [(0, 1, 1%Qc); (1, 2, 1%Qc)]) with 0 in I.
    destruct C as [m n ind r c v]. apply coo_of_list in T. cbn [coo_ind coo_n] in I, HN. subst ind n. split.
    + intros W. assert (X : In (1, 2, 1%Qc) (coo_triples (mk_coo m 2 0 r c v))) by (rewrite T; right; left; reflexivity).
      apply triples_bound in X; auto. cbn in X. lia.
    + unfold coo_entry. rewrite T. repeat split; reflexivity.
  - apply file_ok; try (apply number_lt; cbn; lia). intros e [<-|[<-|[]]]; cbn [fst snd]; (split; [apply number_lt; lia|]; split; [apply number_lt; lia|]; apply R).
Qed.
(** a matrix without elements in row 1 *)
Definition gap : csr := mk_csr 3 3 0 [0; 1; 1; 2] [0; 2] [1%Qc; 1%Qc].
Lemma gap_wf : csr_wf gap.
Proof. wf_csr. destruct i as [|[|[|i]]]; cbn; lia. Qed.
Lemma c44_gap_ref show rnd : reads_back show rnd 1%Qc ->
  exists A file, csr_wf A /\ csr_entry A 2 0 = 0%Qc /\ csr_entry A 2 2 = 1%Qc /\ write_mm show A false (Some 0) = Ok file /\
    always (read_mm_csr rnd file) (fun C => csr_m C = 3 /\ csr_entry C 2 0 = 1%Qc).
Proof.
  intros R. exists gap. eexists. split; [exact gap_wf|]. split; [reflexivity|]. split; [reflexivity|].
  split; [rewrite <- c44_default by reflexivity; apply default_run, gap_wf|].
  change (block_elements gap 0 (csr_ind gap)) with [(0, 0, 1%Qc); (2, 2, 1%Qc)].
  unfold read_mm_csr. rewrite (read_coo_run rnd _ false 3 3 [(0, 0, 1%Qc); (2, 2, 1%Qc)]); [| |discriminate].
  - set (C := file_coo false 3 3 [(0, 0, 1%Qc); (2, 2, 1%Qc)]).
    assert (WC : coo_wf C). { unfold coo_wf; cbn. split; auto. split; auto. split; intros x Hx; destruct Hx as [<-|[<-|[]]]; lia. }
    eapply always_bind.
    + eapply always_bind; [apply (always_det _ C (fun A => A = C)); auto|]. intros A0 ->. apply sort_assert, WC.
    + cbv beta. intros B (WB & MB & NB & IB & P & _ & SB & _). change (coo_triples C) with [(0, 0, 1%Qc); (2, 2, 1%Qc)] in P.
      change (coo_ind C) with 0 in IB. change (coo_m C) with 3 in MB. change (coo_n C) with 3 in NB.
      destruct (triples_proj B WB) as (P1 & P2 & P3). rewrite IB in *. apply Permutation_length_2_inv in P.
      destruct B as [m n ind r c v]. cbn [coo_m coo_n coo_ind coo_row coo_col coo_val] in *. subst m n ind.
      destruct P as [P|P]; rewrite P in P1, P2, P3; cbn [map fst snd plus] in P1, P2, P3; subst r c v.
      * eapply always_det; [vm_compute; reflexivity|]. split; reflexivity.
      * exfalso. inversion_clear SB as [|? ? _ F]. inversion_clear F. lia.
  - apply file_ok; try (apply number_lt; cbn; lia). intros e [<-|[<-|[]]]; cbn [fst snd]; (split; [apply number_lt; lia|]; split; [apply number_lt; lia|]; apply R).
Qed.

(** examples: hypotheses can be met *)
Lemma c44_reads : reads_back show1 exact 1%Qc.
Proof.
  unfold reads_back, a_word. split; [split|].
  - vm_compute. discriminate.
  - intros c Hc. vm_compute in Hc. repeat (destruct Hc as [<-|Hc]; [reflexivity|]). destruct Hc.
  - match goal with |- ?x = _ => let y := eval vm_compute in x in assert (RR : x = y) by (vm_compute; reflexivity); rewrite RR end. canon.
Qed.
Lemma c44_ex_symm : exists file, mm_file exact (lines file) true 2 2 [(1, 1, 1%Qc); (2, 1, 1%Qc)].
Proof.
  exists (file_of ["%%MatrixMarket matrix coordinate real symmetric"; "% a comment"; "2 2 2"; "1 1 1.0000000000000000e+00"; "2 1"]%string).
  assert (NB : forall t n, (forall c, In c t -> is_digit c = true) -> t <> [] -> digits_val t = N.of_nat n -> n <= 100 -> number t n).
  { intros t n A B D L. split; auto. split; auto. split; auto. apply number_lt, L. }
  Ltac digits := intros ? Hc; cbn in Hc; repeat (destruct Hc as [<-|Hc]; [reflexivity|]); destruct Hc.
  exists (lit "%%MatrixMarket matrix coordinate real symmetric"), [lit "% a comment"], (lit "2 2 2"), [lit "1 1 1.0000000000000000e+00"; lit "2 1"],
    (lit "matrix"), (lit "coordinate"), (lit "real"), (lit "symmetric"), (lit "2"), (lit "2"), (lit "2"), 2.
  split; [vm_compute; reflexivity|]. split; [vm_compute; reflexivity|]. split; [split; [discriminate|digits]|]. split; [tauto|].
  split; [intros l [<-|[]]; eexists; vm_compute; reflexivity|]. split; [intros r; vm_compute; discriminate|]. split; [vm_compute; reflexivity|].
  do 3 (split; [apply NB; [digits|discriminate|reflexivity|lia]|]).
  constructor; [|constructor; [|constructor]].
  - exists (lit "1"), (lit "1"). do 2 (split; [apply NB; [digits|discriminate|reflexivity|lia]|]). right. exists (lit "1.0000000000000000e+00").
    split; [split; [discriminate|digits]|]. split; [vm_compute; reflexivity|]. exact (proj2 c44_reads).
  - exists (lit "2"), (lit "1"). do 2 (split; [apply NB; [digits|discriminate|reflexivity|lia]|]). left. split; [vm_compute; reflexivity|reflexivity].
Qed.
Lemma c44_binary_ex : exists A, coo_wf A /\ coo_fits 4 A /\ base_visible A /\ coo_m A = coo_n A /\
  coo_upper A /\ ~ coo_lower A /\ diagonal_count A = coo_n A /\
  (exists enc dec, doubles_ok enc dec (coo_val A)).
Proof.
  exists (mk_coo 2 2 0 [0; 0; 1] [0; 1; 1] [1%Qc; 1%Qc; 1%Qc]).
  split. { unfold coo_wf; cbn. split; auto. split; auto. split; intros x Hx; repeat (destruct Hx as [<-|Hx]; [lia|]); destruct Hx. }
  split. { unfold coo_fits. cbn [coo_m coo_n coo_val coo_row coo_col List.length]. split; [reflexivity|]. split; [reflexivity|]. split; [reflexivity|].
    split; intros x Hx; cbn in Hx; repeat (destruct Hx as [<-|Hx]; [reflexivity|]); destruct Hx. }
  split. { right. split; auto. left. left. reflexivity. }
  split; [reflexivity|].
  split. { intros t Ht. cbn in Ht. repeat (destruct Ht as [<-|Ht]; [cbn; lia|]). destruct Ht. }
  split. { intros L. specialize (L (0, 1, 1%Qc) ltac:(cbn; auto)). cbn in L. lia. }
  split; [reflexivity|].
  exists (fun _ => repeat 0%N 8), (fun _ => 1%Qc). intros v Hv. cbn in Hv. split; [reflexivity|]. repeat (destruct Hv as [<-|Hv]; [reflexivity|]). destruct Hv.
Qed.
Lemma c44_csr_ex : csr_wf ex_csr /\ csr_ind ex_csr = 1 /\
  (forall i, i < csr_m ex_csr -> exists j, stored (csr_line ex_csr i) j = true) /\
  stored (csr_line ex_csr 2) 0 = true /\ stored (csr_line ex_csr 0) 2 = true.
Proof.
  split; [apply ex_csr_ok|]. split; [reflexivity|]. split; [|split; reflexivity]. cbn. intros [|[|[|i]]] Hi; [exists 0|exists 1|exists 0|lia]; reflexivity.
Qed.
Lemma c44_dist_ex : tiling 0 4 [(0, 1); (1, 4)] /\ List.length ex_dist = 2 /\
  (forall r A, nth_error ex_dist r = Some A -> dist_part 4 [(0, 1); (1, 4)] r A /\ csr_ind (d_diag A) = 0).
Proof.
  split; [exact ex_tiling|]. split; [reflexivity|]. intros r A E. split; [exact (ex_dist_part r A E)|].
  destruct r as [|[|r]]; cbn in E; [injection E as <-|injection E as <-|destruct r; discriminate]; reflexivity.
Qed.

(** size lines *)
Lemma c44_size rnd file scheme banner comments size body A : lines file = banner :: comments ++ size :: body ->
  (forall l, In l comments -> exists r, l = "%"%char :: r) -> (forall r, size <> "%"%char :: r) ->
  List.length (fields size) <> 3 -> ~ read_mm_as_coo rnd file scheme (Ok A).
Proof.
  intros E C Z L. unfold read_mm_as_coo. rewrite E. cbv zeta. change (skipn 1 (banner :: comments ++ size :: body)) with (comments ++ size :: body). assert (K : skip_comments (comments ++ size :: body) = size :: body) by (apply skip_ok; auto). rewrite K. cbn [nth].
  rewrite (tokenize_fields size). rewrite map_length. rewrite (proj2 (Nat.eqb_neq (List.length (fields size)) 3) L). cbn [negb].
  intros H. unfold nbind in H. destruct H as [(e & H & X)|(B & H & _)]; [discriminate|]. unfold det in H.
  destruct (at_ (tokenize banner) 0); [|discriminate]. cbn [bind] in H. destruct (_ || _); [discriminate|].
  destruct (at_ (tokenize banner) 4); discriminate.
Qed.
Lemma c44_size_ex : lines (file_of ["%%MatrixMarket matrix coordinate real general"; "2 2"; "1 1"]%string) =
    lit "%%MatrixMarket matrix coordinate real general" :: [] ++ lit "2 2" :: [lit "1 1"] /\ List.length (fields (lit "2 2")) <> 3.
Proof. split; [vm_compute; reflexivity|vm_compute; discriminate]. Qed.

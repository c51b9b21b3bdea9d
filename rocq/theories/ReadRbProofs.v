(** The Rutherford-Boeing reader (C71). *)
From Coq Require Import Ascii String QArith Qcanon ZArith NArith Bool Lia.
From Verif Require Import Base Ham Asci Mem MemProofs SparseSpec CsrView Sparse ConvSpec Text TextProofs IOSpec FcidumpProofs.
From Verif Require Import SparseIO SparseIOSpec SparseIOProofs SparseProofs1 SparseGlue ReadRb ReadRbSpec.
Local Open Scope nat_scope.

Lemma upd_app {A} (a b : list A) x : b <> [] -> upd (a ++ b) (List.length a) x = (a ++ [x]) ++ skipn 1 b.
Proof.
  intros Hb. induction a as [|y a IH]; cbn [app List.length upd]; [|rewrite IH; reflexivity].
  destruct b; [congruence|reflexivity].
Qed.
Section BLOCK.
  Context {A : Type} (conv : text -> res A) (reads : text -> A -> Prop).
  Hypothesis Hreads : forall t v, reads t v -> conv (trim t) = Ok v.
  Let step := fun (s : list A * nat) t => let '(arr, curcount) := s in
      do v <- conv t; do arr <- put arr curcount v; Ok (arr, curcount + 1).
  Lemma line_run toks xs : Forall2 reads toks xs -> forall done rest, List.length xs <= List.length rest ->
    foldM (map trim toks) step (done ++ rest, List.length done) = Ok ((done ++ xs) ++ skipn (List.length xs) rest, List.length (done ++ xs)).
  Proof.
    induction 1 as [|t v toks xs R _ IH]; intros done rest L; cbn [map foldM].
    - rewrite app_nil_r. reflexivity.
    - cbn [List.length] in L. unfold step at 1. rewrite (Hreads _ _ R). cbn [bind].
      rewrite put_ok by (rewrite app_length; lia). cbn [bind].
      rewrite upd_app by (destruct rest; cbn in L; [lia|congruence]).
      replace (List.length done + 1) with (List.length (done ++ [v])) by (rewrite app_length; reflexivity).
      rewrite IH by (rewrite skipn_length; lia).
      replace (skipn (List.length xs) (skipn 1 rest)) with (skipn (S (List.length xs)) rest) by (destruct rest; [destruct xs|]; reflexivity).
      replace ((done ++ [v]) ++ xs) with (done ++ v :: xs) by (rewrite <- app_assoc; reflexivity). reflexivity.
  Qed.
  Lemma flat_last (ls : list text) : ls <> [] -> fields (last ls []) <> [] -> flat_map fields ls <> [].
  Proof.
    induction ls as [|l ls IH]; [congruence|]. intros _. destruct ls as [|l' ls].
    - cbn [last flat_map]. rewrite app_nil_r. auto.
    - intros H E. change (last (l :: l' :: ls) []) with (last (l' :: ls) []) in H. change (flat_map fields (l :: l' :: ls)) with (fields l ++ flat_map fields (l' :: ls)) in E.
      apply app_eq_nil in E. apply IH; [congruence|auto|apply E].
  Qed.
  Lemma block_run ls : ls <> [] -> fields (last ls []) <> [] -> forall xs more done rest, Forall2 reads (flat_map fields ls) xs ->
    List.length rest = List.length xs ->
    read_block conv (List.length done + List.length xs) (ls ++ more) (done ++ rest) (List.length done) = Ok (done ++ xs, more).
  Proof.
    induction ls as [|l ls IH]; [congruence|]. intros _ Hl xs more done rest F L.
    cbn [flat_map] in F. apply Forall2_app_inv_l in F. destruct F as (x1 & x2 & F1 & F2 & ->).
    cbn [app read_block]. change (tokenize l) with (map trim (fields l)).
    match goal with |- context [foldM _ ?g _] => change g with step end.
    rewrite app_length in *. rewrite (line_run _ _ F1 done rest) by lia. cbn [bind].
    destruct ls as [|l' ls].
    - inversion F2; subst. cbn [List.length app]. rewrite app_length, !Nat.add_0_r, Nat.eqb_refl, app_nil_r.
      cbn [List.length] in L. rewrite skipn_all2 by lia. rewrite app_nil_r. reflexivity.
    - change (last (l :: l' :: ls) []) with (last (l' :: ls) []) in Hl.
      assert (N : x2 <> []).
      { intros ->. inversion F2 as [E|]. symmetry in E. exact (flat_last (l' :: ls) ltac:(congruence) Hl E). }
      destruct (Nat.eqb_spec (List.length (done ++ x1)) (List.length done + (List.length x1 + List.length x2))) as [E|_].
      { rewrite app_length in E. destruct x2; [congruence|cbn in E; lia]. }
      replace (List.length done + (List.length x1 + List.length x2)) with (List.length (done ++ x1) + List.length x2) by (rewrite app_length; lia).
      rewrite (app_assoc done). apply IH; [congruence|auto|auto|rewrite skipn_length; lia].
  Qed.
  Lemma block_run' ls xs more rest : block reads ls xs -> List.length rest = List.length xs -> (xs = [] -> more = []) ->
    read_block conv (List.length xs) (ls ++ more) rest 0 = Ok (xs, more).
  Proof.
    intros (F & Hl) L H0. destruct ls as [|l ls].
    - inversion F; subst. rewrite H0 by auto. cbn. destruct rest; [reflexivity|discriminate].
    - destruct Hl as [Hl|Hl]; [discriminate|].
      apply (block_run (l :: ls) ltac:(congruence) Hl xs more [] rest F L).
  Qed.
  Lemma block_cut ls : forall xs total done rest, Forall2 reads (flat_map fields ls) xs -> List.length xs <= List.length rest -> List.length done + List.length xs < total ->
    read_block conv total ls (done ++ rest) (List.length done) = Ok ((done ++ xs) ++ skipn (List.length xs) rest, []).
  Proof.
    induction ls as [|l ls IH]; intros xs total done rest F L T; cbn [read_block].
    - inversion F; subst. rewrite app_nil_r. reflexivity.
    - cbn [flat_map] in F. apply Forall2_app_inv_l in F. destruct F as (x1 & x2 & F1 & F2 & ->).
      change (tokenize l) with (map trim (fields l)).
      match goal with |- context [foldM _ ?g _] => change g with step end.
      rewrite app_length in *. rewrite (line_run _ _ F1 done rest) by lia. cbn [bind].
      destruct (Nat.eqb_spec (List.length (done ++ x1)) total) as [E|_]; [rewrite app_length in E; lia|].
      rewrite IH with (xs := x2); [|auto|rewrite skipn_length; lia|rewrite app_length; lia].
      rewrite <- !app_assoc. f_equal. f_equal. f_equal. f_equal. f_equal.
      clear. revert rest. induction x1 as [|x x1 IH]; intros rest; [reflexivity|].
      destruct rest as [|r rest]; cbn [List.length skipn Nat.add]; [apply skipn_nil|apply IH].
  Qed.
  Lemma block_empty ls : block reads ls [] -> ls = [].
  Proof.
    intros (F & Hl). destruct ls as [|l ls]; auto. exfalso. destruct Hl as [Hl|Hl]; [discriminate|].
    inversion F as [E|]. symmetry in E. exact (flat_last (l :: ls) ltac:(congruence) Hl E).
  Qed.
End BLOCK.

Lemma is_index_word t n : is_index t n -> a_word t.
Proof. intros (E & D & _). split; auto. intros c Hc. apply digit_not_space, D, Hc. Qed.
Lemma index_reads t n : is_index t n -> stoi_index (trim t) = Ok n.
Proof.
  intros H. unfold stoi_index. rewrite trim_word by (eapply is_index_word; eauto). rewrite (index_stoi _ _ H). cbn [bind]. apply index_nat.
Qed.
Lemma decimal_reads rnd t v : decimal rnd t v -> stod rnd (trim t) = Ok v.
Proof. intros (W & H). rewrite trim_word; auto. Qed.

Lemma rb_run rnd file front more m n cp ri vs : lines file = front ++ more -> rb_file rnd front m n cp ri vs ->
  List.length cp = n + 1 -> List.length ri = List.length vs -> List.length vs <= m * n -> (vs = [] -> more = []) ->
  read_rb_as_csc rnd file = match more with [] => Ok (mk_csc m n 1 cp ri vs) | _ => Err AssertFail end.
Proof.
  intros E (title & sizes & head & formats & b1 & b2 & b3 & ty & tm & tn & tz & te & -> & Hh & Nm & Nn & Nz & B1 & B2 & B3) Lc Lr Lz H0.
  unfold read_rb_as_csc. rewrite E. cbn [app skipn nth]. unfold tokenize. fold (fields head). rewrite Hh. cbn [map List.length Nat.eqb negb at_ nth_error].
  unfold at_. cbn [nth_error bind].
  rewrite (trim_word tm), (trim_word tn), (trim_word tz) by (eapply number_word; eauto).
  rewrite (number_stoll _ _ Nm), (number_stoll _ _ Nn), (number_stoll _ _ Nz). cbn [bind].
  destruct (Z.leb_spec (Z.of_nat (List.length vs)) (Z.of_nat m * Z.of_nat n)) as [_|G]; [|nia]. cbn [negb].
  rewrite !index_nat. cbn [bind]. unfold csc_alloc. cbn [colptr rowind csc_val csc_ind].
  rewrite <- !app_assoc. rewrite <- Lc.
  rewrite (block_run' stoi_index is_index index_reads b1 cp) by (auto; try (rewrite repeat_length; auto); intros ->; cbn in Lc; lia).
  cbn [bind]. rewrite <- Lr.
  rewrite (block_run' stoi_index is_index index_reads b2 ri).
  2: auto. 2: apply repeat_length.
  2:{ intros ->. cbn in Lr. destruct vs; [|discriminate]. rewrite H0 by auto. rewrite (block_empty _ _ B3). reflexivity. }
  cbn [bind]. rewrite Lr.
  rewrite (block_run' (stod rnd) (decimal rnd) (decimal_reads rnd) b3 vs) by (auto; apply repeat_length).
  reflexivity.
Qed.

Lemma rb_read rnd file m n cp ri vs : rb_file rnd (lines file) m n cp ri vs -> List.length cp = n + 1 -> List.length ri = List.length vs -> List.length vs <= m * n ->
  read_rb_csc rnd file = Ok (mk_csc m n 1 cp ri vs).
Proof. intros H Lc Lr Lz. unfold read_rb_csc. rewrite (rb_run rnd file (lines file) [] m n cp ri vs); auto. symmetry. apply app_nil_r. Qed.
Lemma rb_read_csr rnd file m n cp ri vs : rb_file rnd (lines file) m n cp ri vs -> csc_wf (mk_csc m n 1 cp ri vs) -> List.length vs <= m * n ->
  exists B, read_rb_csr rnd file = Ok B /\ csr_wf B /\ csr_m B = m /\ csr_n B = n /\ csr_ind B = 1 /\
  (forall i, i < m -> ordered_line (csr_line B i)) /\
  forall i j, i < m -> j < n -> csr_entry B i j = csc_entry (mk_csc m n 1 cp ri vs) i j.
Proof.
  intros H W Lz. destruct (c38_csc_to_csr _ W) as (B & R & W' & M & N & I & O & X). exists B.
  unfold read_rb_csr. destruct W as (Lc & _ & _ & _ & Lv & _). cbn in Lc, Lv.
  fold (read_rb_csc rnd file). rewrite (rb_read rnd file m n cp ri vs) by auto. cbn [bind]. cbn in M, N, I. auto 10.
Qed.
Lemma rb_trailing rnd file front more m n cp ri vs : lines file = front ++ more -> more <> [] -> vs <> [] -> rb_file rnd front m n cp ri vs ->
  List.length cp = n + 1 -> List.length ri = List.length vs -> List.length vs <= m * n -> read_rb_csc rnd file = Err AssertFail.
Proof.
  intros E Hm Hv H Lc Lr Lz. unfold read_rb_csc. rewrite (rb_run rnd file front more m n cp ri vs) by (auto; congruence).
  destruct more; [congruence|reflexivity].
Qed.

Lemma rb_cut rnd file title sizes head formats b1 b2 b3 ty tm tn tz te m n z cp ri vs :
  lines file = title :: sizes :: head :: formats :: b1 ++ b2 ++ b3 -> fields head = [ty; tm; tn; tz; te] -> number tm m -> number tn n -> number tz z ->
  block is_index b1 cp -> block is_index b2 ri -> Forall2 (decimal rnd) (flat_map fields b3) vs ->
  List.length cp = n + 1 -> List.length ri = z -> z <= m * n -> List.length vs < z ->
  read_rb_csc rnd file = Ok (mk_csc m n 1 cp ri (vs ++ repeat 0%Qc (z - List.length vs))).
Proof.
  intros E Hh Nm Nn Nz B1 B2 B3 Lc Lr Lz Lv.
  unfold read_rb_csc, read_rb_as_csc. rewrite E. cbn [app skipn nth]. unfold tokenize. fold (fields head). rewrite Hh. cbn [map List.length Nat.eqb negb at_ nth_error].
  unfold at_. cbn [nth_error bind].
  rewrite (trim_word tm), (trim_word tn), (trim_word tz) by (eapply number_word; eauto).
  rewrite (number_stoll _ _ Nm), (number_stoll _ _ Nn), (number_stoll _ _ Nz). cbn [bind].
  destruct (Z.leb_spec (Z.of_nat z) (Z.of_nat m * Z.of_nat n)) as [_|G]; [|nia]. cbn [negb].
  rewrite !index_nat. cbn [bind]. unfold csc_alloc. cbn [colptr rowind csc_val csc_ind].
  rewrite <- Lc.
  rewrite (block_run' stoi_index is_index index_reads b1 cp) by (auto; try (rewrite repeat_length; auto); intros ->; cbn in Lc; lia).
  cbn [bind]. rewrite <- Lr.
  rewrite (block_run' stoi_index is_index index_reads b2 ri) by (auto; try apply repeat_length; intros ->; cbn in Lr; lia).
  cbn [bind]. rewrite Lr.
  pose proof (block_cut (stod rnd) (decimal rnd) (decimal_reads rnd) b3 vs z [] (repeat 0%Qc z) B3) as X.
  rewrite repeat_length in X. cbn [List.length app] in X. rewrite X by lia. cbn [bind].
  replace (skipn (List.length vs) (repeat 0%Qc z)) with (repeat 0%Qc (z - List.length vs)); [reflexivity|].
  clear. revert z. induction (List.length vs) as [|k IH]; intros z; [rewrite Nat.sub_0_r; reflexivity|].
  destruct z; [reflexivity|]. cbn [repeat skipn Nat.sub]. apply IH.
Qed.

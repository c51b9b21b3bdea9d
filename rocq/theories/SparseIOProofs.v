(** MatrixMarket files (C44). *)
From Coq Require Import Ascii String QArith Qcanon ZArith NArith Bool Lia Sorting.Permutation Sorting.Sorted.
From Verif Require Import Base Sums Nondet Ham Asci Mem MemProofs Spmv SparseSpec CsrView SpmvSpec CsrProofs SpmvProofs PSpmvProofs3 CooProofs
  Sparse ConvSpec SparseProofs1 SparseProofs4 Text TextProofs IO IOSpec IOProofs SparseIO SparseIOSpec.
Local Open Scope nat_scope.

(** ** tokens *)
Lemma a_word_word t : a_word t -> word is_space t.
Proof. intros (E & H). split; auto. apply forallb_forall. intros c Hc. rewrite H; auto. Qed.
Lemma trim_word t : a_word t -> trim t = t.
Proof.
  intros (E & H). unfold trim, rtrim, ltrim.
  assert (D : forall s : text, (forall c, In c s -> is_space c = false) -> drop_while is_space s = s).
  { intros [|c s] Hs; apply drop_while_none; auto. apply Hs. left; auto. }
  rewrite (D (rev t)) by (intros c Hc; apply H, in_rev; auto). rewrite rev_involutive. apply D; auto.
Qed.
Lemma number_word t n : number t n -> a_word t.
Proof. intros (E & D & _). split; auto. intros c Hc. apply digit_not_space, D, Hc. Qed.
Lemma number_stoll t n : number t n -> stoll t = Ok (Z.of_nat n).
Proof.
  intros (E & D & V & L). unfold stoll, sto. destruct t as [|c t]; [congruence|].
  assert (Dc : is_digit c = true) by (apply D; left; auto).
  rewrite drop_while_none by (apply digit_not_space, Dc).
  replace (take_sign (c :: t)) with (false, c :: t) by (cbn [take_sign]; rewrite !digit_neq; auto).
  assert (F : forallb is_digit (c :: t) = true) by (apply forallb_forall; auto).
  destruct (take_while_all is_digit (c :: t) [] F I) as [X _]. rewrite app_nil_r in X. rewrite X, V, nat_N_Z.
  change (Z.of_N (64 - 1)) with 63%Z. change (2 ^ 63)%N with (Z.to_N (2 ^ 63)) in L.
  replace ((- 2 ^ 63 <=? Z.of_nat n) && (Z.of_nat n <? 2 ^ 63))%Z with true; auto.
  symmetry. apply andb_true_intro. split; [apply Z.leb_le|apply Z.ltb_lt]; lia.
Qed.
Lemma show_number n : (N.of_nat n < 2 ^ 63)%N -> number (show_nat n) n.
Proof.
  intros H. destruct (show_N_ok (N.of_nat n)) as (V & D & E). split; auto. split; [|split; auto].
  rewrite forallb_forall in D. auto.
Qed.
Lemma tokenize_fields l : tokenize l = map trim (fields l).
Proof. reflexivity. Qed.
Lemma index_nat n : index_ (Z.of_nat n) = Ok n.
Proof. unfold index_. destruct (Z.ltb_spec (Z.of_nat n) 0); [lia|]. rewrite Nat2Z.id. reflexivity. Qed.

(** ** reading *)
Lemma entries_ok rnd sym body es : Forall2 (mm_row rnd) body es -> read_mm_entries rnd sym body = Ok (mirrored sym es).
Proof.
  intros H. unfold read_mm_entries.
  match goal with |- (do l <- mapM ?f body; _) = _ => set (F := f) end.
  assert (G : exists L, mapM F body = Ok L /\ List.concat L = mirrored sym es).
  { induction H as [|l [[i j] v] body es R H IH]; [exists []; auto|].
    destruct IH as (L & E & C). cbn [mapM]. rewrite E.
    exists ((if sym && negb (i =? j) then [(i, j, v); (j, i, v)] else [(i, j, v)]) :: L).
    cbn [List.concat mirrored flat_map]. fold (mirrored sym es). rewrite C. split; auto.
    destruct R as (a & b & A & B & R). unfold F. rewrite tokenize_fields.
    destruct R as [[R ->]|(x & W & R & V)]; rewrite R; cbn [map at_ nth_error bind List.length Nat.eqb];
      rewrite !(trim_word a), !(trim_word b) by (eapply number_word; eauto);
      rewrite (number_stoll _ _ A); cbn [bind]; rewrite (number_stoll _ _ B); cbn [bind].
    - rewrite !index_nat. reflexivity.
    - rewrite trim_word, V by auto. cbn [bind]. rewrite !index_nat. reflexivity. }
  destruct G as (L & -> & <-). reflexivity.
Qed.
Lemma skip_ok comments size rest : (forall l, In l comments -> exists r, l = "%"%char :: r) -> (forall r, size <> "%"%char :: r) ->
  skip_comments (comments ++ size :: rest) = size :: rest.
Proof.
  induction comments as [|l comments IH]; intros H N; cbn [app skip_comments].
  - destruct size as [|c r]; auto. destruct (Ascii.eqb_spec c "%"); auto. subst. exfalso. apply (N r). auto.
  - destruct (H l) as (r & ->); [left; auto|]. cbn. apply IH; auto. intros; apply H; right; auto.
Qed.
Lemma text_eqb_spec a b : text_eqb a b = true <-> a = b.
Proof. unfold text_eqb. destruct (list_eq_dec ascii_dec a b); split; intros; auto; discriminate. Qed.

Definition file_coo (sym : bool) (m n : nat) (es : list element) : coo :=
  mk_coo m n (base_of (mirrored sym es)) (map (fun e => fst (fst e)) (mirrored sym es)) (map (fun e => snd (fst e)) (mirrored sym es)) (map snd (mirrored sym es)).
Lemma base_ok es : (if existsb (fun x => x =? 0) (map (fun e : element => fst (fst e)) es) || existsb (fun x => x =? 0) (map (fun e => snd (fst e)) es)
  then 0 else 1) = base_of es.
Proof.
  unfold base_of. replace (_ || _) with (existsb (fun e : element => (fst (fst e) =? 0) || (snd (fst e) =? 0)) es); auto.
  induction es as [|e es IH]; auto. cbn [existsb map]. rewrite IH.
  destruct (fst (fst e) =? 0), (snd (fst e) =? 0), (existsb (fun x => x =? 0) (map (fun e : element => fst (fst e)) es)); auto.
Qed.
Lemma read_coo_run rnd file sym m n es sch : mm_file rnd (lines file) sym m n es -> (sym = true -> m = n) ->
  read_mm_as_coo rnd file sch = nbind (Nondet.det (Ok (file_coo sym m n es))) (fun A => match sch with
  | no_sort => Nondet.det (Ok A)
  | sort_by_row => any B <- sort_by_row_index A; Nondet.det (if is_sorted_by_row_index B then Ok B else Err AssertFail)
  | sort_by_col => any B <- sort_by_col_index A; Nondet.det (if is_sorted_by_col_index B then Ok B else Err AssertFail)
  end).
Proof.
  intros (banner & comments & size & body & a & b & c & d & tm & tn & tz & z & E & F1 & Wd & S & Hc & Ns & F2 & Nm & Nn & Nz & R) Sq.
  unfold read_mm_as_coo. f_equal. f_equal. rewrite E. cbv zeta. cbn [nth skipn].
  rewrite !tokenize_fields, F1. cbn [map at_ nth_error bind List.length].
  change (trim (lit "%%MatrixMarket")) with (lit "%%MatrixMarket").
  change (text_eqb (lit "%%MatrixMarket") (lit "%%MatrixMarket")) with true. cbn [negb orb Nat.eqb].
  rewrite (trim_word d) by auto.
  assert (Es : text_eqb d (lit "symmetric") = sym).
  { apply eq_true_iff_eq. rewrite text_eqb_spec. symmetry. exact S. }
  rewrite Es, skip_ok by auto. cbn [nth]. rewrite F2. cbn [map at_ nth_error bind List.length Nat.eqb negb].
  rewrite (trim_word tm), (trim_word tn), (trim_word tz) by (eapply number_word; eauto).
  rewrite (number_stoll _ _ Nm), (number_stoll _ _ Nn), (number_stoll _ _ Nz). cbn [bind].
  replace (sym && negb (Z.of_nat m =? Z.of_nat n)%Z) with false.
  2:{ destruct sym; auto. rewrite Sq, Z.eqb_refl by auto. reflexivity. }
  destruct (Z.ltb_spec (Z.of_nat z) 0); [lia|].
  rewrite (entries_ok _ _ _ _ R). cbn [bind]. rewrite !index_nat. cbn [bind].
  unfold determine_indexing_from_adj, file_coo. cbn [coo_row coo_col coo_m coo_n coo_val].
  rewrite base_ok. reflexivity.
Qed.
Lemma combine3 {A B C} (l : list (A * B * C)) : combine (combine (map (fun e => fst (fst e)) l) (map (fun e => snd (fst e)) l)) (map snd l) = l.
Proof. induction l as [|[[a b] c] l IH]; cbn; auto. rewrite IH. reflexivity. Qed.
Lemma c44_read rnd file sym m n es : mm_file rnd (lines file) sym m n es -> (sym = true -> m = n) ->
  always (read_mm_coo rnd file) (fun A => coo_m A = m /\ coo_n A = n /\ coo_ind A = base_of (mirrored sym es) /\
    combine (combine (coo_row A) (coo_col A)) (coo_val A) = mirrored sym es).
Proof.
  intros H S. unfold read_mm_coo. rewrite (read_coo_run _ _ _ _ _ _ _ H S).
  eapply always_bind; [apply (always_det _ (file_coo sym m n es) (fun A => A = file_coo sym m n es)); auto|].
  intros A ->. apply (always_det _ (file_coo sym m n es)); auto. unfold file_coo. cbn [coo_m coo_n coo_ind coo_row coo_col coo_val].
  repeat split; auto. apply combine3.
Qed.

(** ** writing *)
Definition mm_text (show : Qc -> text) (e : element) : text := show_nat (fst (fst e)) ++ [sp] ++ show_nat (snd (fst e)) ++ [sp] ++ show (snd e).
Lemma show_Z_nat n : show_Z (Z.of_nat n) = show_nat n.
Proof. unfold show_Z, show_nat. destruct (Z.ltb_spec (Z.of_nat n) 0); [lia|]. f_equal. lia. Qed.
Lemma split_sp_word t : a_word t -> word (fun c => Ascii.eqb c sp) t.
Proof. intros H. eapply word_sub; [|apply a_word_word, H]. intros c Hc. apply Ascii.eqb_eq in Hc. subst. reflexivity. Qed.
Lemma show_a_word n : a_word (show_nat n).
Proof. destruct (show_N_ok (N.of_nat n)) as (_ & D & E). split; auto. intros c Hc. apply digit_not_space. rewrite forallb_forall in D. auto. Qed.
Lemma mm_text_row show rnd e : (N.of_nat (fst (fst e)) < 2 ^ 63)%N -> (N.of_nat (snd (fst e)) < 2 ^ 63)%N -> reads_back show rnd (snd e) ->
  mm_row rnd (mm_text show e) e /\ forallb (fun c => negb (Ascii.eqb c nl)) (mm_text show e) = true.
Proof.
  destruct e as [[i j] v]. cbn [fst snd]. intros Hi Hj [W V]. split.
  - exists (show_nat i), (show_nat j). split; [apply show_number; auto|]. split; [apply show_number; auto|].
    right. exists (show v). split; auto. split; auto. unfold fields, mm_text. cbn [fst snd app].
    rewrite !split_cons, split_word; auto; apply split_sp_word; auto using show_a_word.
  - unfold mm_text. rewrite !forallb_app. cbn [forallb fst snd]. rewrite !show_no_nl. rewrite word_no_nl; auto. apply a_word_word, W.
Qed.

(** the elements written for a matrix whose rows are shifted by [ro] and columns
    (counted from 0) by [co] *)
Definition block_elements (A : csr) (ro co : nat) : list element :=
  flat_map (fun i => map (fun cv => (i + ro, fst cv + co, snd cv)) (csr_line A i)) (seq 0 (csr_m A)).
Lemma concat_map_map {X Y Z} (f : Y -> list Z) (g : X -> list Y) l : List.concat (List.concat (map (fun x => map f (g x)) l)) = flat_map f (flat_map g l).
Proof. induction l as [|x l IH]; cbn; auto. rewrite concat_app, IH, flat_map_app. f_equal. clear. induction (g x) as [|y m IH]; cbn; auto. rewrite IH. auto. Qed.
Lemma seq_from a n : seq a n = map (fun j => a + j) (seq 0 n).
Proof.
  replace (seq a n) with (seq (a + 0) n) by (f_equal; lia). generalize 0.
  induction n as [|n IH]; intros k; cbn [seq map]; auto. f_equal. rewrite <- IH. f_equal. lia.
Qed.
Lemma block_run show A ro co coff : csr_wf A -> coff = (Z.of_nat co - Z.of_nat (csr_ind A))%Z ->
  write_mm_csr_block show A (Z.of_nat ro) coff = Ok (flat_map (fun e => mm_text show e ++ [nl]) (block_elements A ro co)).
Proof.
  intros H ->. unfold write_mm_csr_block.
  rewrite (mapM_ok _ (fun i => map (fun e => mm_text show e ++ [nl]) (map (fun cv => (i + ro, fst cv + co, snd cv)) (csr_line A i)))).
  - cbn [bind]. f_equal. exact (concat_map_map (fun e => mm_text show e ++ [nl]) (fun i => map (fun cv => (i + ro, fst cv + co, snd cv)) (csr_line A i)) (seq 0 (csr_m A))).
  - intros i Hi. apply in_seq in Hi. pose proof (ptr_len H). destruct (row_bounds A i H ltac:(lia)) as (B1 & B2 & B3 & B4).
    pose proof (ptr_range _ _ _ _ _ _ H i ltac:(lia)). pose proof (ptr_range _ _ _ _ _ _ H (S i) ltac:(lia)).
    rewrite !(at_ok _ _ 0) by lia. cbn [bind]. rewrite Nat.add_1_r, !minus_ok by lia. cbn [bind].
    cbn zeta in *. set (a := nth i (rowptr A) 0 - csr_ind A) in *. set (b := nth (S i) (rowptr A) 0 - csr_ind A) in *.
    assert (V : List.length (nzval A) = List.length (colind A)) by apply H.
    rewrite (mapM_ok _ (fun k => mm_text show (i + ro, nth k (colind A) 0 - csr_ind A + co, nth k (nzval A) 0%Qc) ++ [nl])).
    + f_equal. unfold csr_line. rewrite line_seq by (auto; unfold a, b in *; lia). fold a b. rewrite !map_map. cbn [fst snd].
      replace (seq a (b - a)) with (map (fun j => a + j) (seq 0 (b - a))); [rewrite map_map; reflexivity|].
      symmetry. apply seq_from.
    + intros k Hk. apply in_seq in Hk. rewrite (at_ok _ _ 0) by lia. rewrite (at_ok _ _ 0%Qc) by lia. cbn [bind]. f_equal.
      unfold mm_entry, mm_text. cbn [fst snd].
      assert (C : csr_ind A <= nth k (colind A) 0).
      { destruct H as (_ & _ & _ & _ & _ & HC). apply HC. apply nth_In. lia. }
      replace (Z.of_nat i + Z.of_nat ro)%Z with (Z.of_nat (i + ro)) by lia.
      replace (Z.of_nat (nth k (colind A) 0%nat) + (Z.of_nat co - Z.of_nat (csr_ind A)))%Z with (Z.of_nat (nth k (colind A) 0%nat - csr_ind A + co)) by lia.
      rewrite !show_Z_nat, <- !app_assoc. reflexivity.
Qed.

(** a header and element lines make a file *)
Lemma header_lines m n z body : lines (write_mm_header m n z false ++ body) =
  lit "%%MatrixMarket matrix coordinate real general" :: (show_nat m ++ [sp] ++ show_nat n ++ [sp] ++ show_nat z) :: lines body.
Proof.
  unfold write_mm_header. rewrite <- !app_assoc.
  replace (lit "%%MatrixMarket matrix coordinate real " ++ lit "general" ++ [nl] ++ show_nat m ++ [sp] ++ show_nat n ++ [sp] ++ show_nat z ++ [nl] ++ body)
    with (lit "%%MatrixMarket matrix coordinate real general" ++ nl :: ((show_nat m ++ [sp] ++ show_nat n ++ [sp] ++ show_nat z) ++ nl :: body))
    by (rewrite <- !app_assoc; reflexivity).
  rewrite lines_cons by reflexivity. rewrite lines_cons; auto. rewrite !forallb_app. cbn [forallb]. rewrite !show_no_nl. reflexivity.
Qed.
Lemma flat_map_lines show (es : list element) : flat_map (fun e => mm_text show e ++ [nl]) es = flat_map (fun l => l ++ [nl]) (map (mm_text show) es).
Proof. induction es; cbn [flat_map map]; auto. rewrite IHes. auto. Qed.
Lemma file_ok show rnd m n z es : (N.of_nat m < 2 ^ 63)%N -> (N.of_nat n < 2 ^ 63)%N -> (N.of_nat z < 2 ^ 63)%N ->
  (forall e, In e es -> (N.of_nat (fst (fst e)) < 2 ^ 63)%N /\ (N.of_nat (snd (fst e)) < 2 ^ 63)%N /\ reads_back show rnd (snd e)) ->
  mm_file rnd (lines (write_mm_header m n z false ++ flat_map (fun e => mm_text show e ++ [nl]) es)) false m n es.
Proof.
  intros Hm Hn Hz He. rewrite header_lines.
  exists (lit "%%MatrixMarket matrix coordinate real general"), [], (show_nat m ++ [sp] ++ show_nat n ++ [sp] ++ show_nat z),
    (lines (flat_map (fun e => mm_text show e ++ [nl]) es)), (lit "matrix"), (lit "coordinate"), (lit "real"), (lit "general"),
    (show_nat m), (show_nat n), (show_nat z), z.
  split; auto. split; [reflexivity|]. split. { split; [discriminate|]. intros c Hc. cbn in Hc. repeat (destruct Hc as [<-|Hc]; [reflexivity|]). destruct Hc. }
  split; [split; discriminate|]. split; [intros l []|]. split.
  { intros r. destruct (show_N_ok (N.of_nat m)) as (_ & D & E). unfold show_nat. destruct (show_N (N.of_nat m)) as [|c t]; [congruence|].
    cbn [app]. intros X. injection X as -> _. cbn in D. discriminate. }
  split. { unfold fields. cbn [app]. rewrite !split_cons, split_word; auto; apply split_sp_word, show_a_word. }
  split; [apply show_number; auto|]. split; [apply show_number; auto|]. split; [apply show_number; auto|].
  rewrite flat_map_lines, lines_concat.
  - induction es as [|e es IH]; cbn [map]; constructor.
    + apply mm_text_row; apply He; left; auto.
    + apply IH. intros e' H'. apply He. right; auto.
  - intros l Hl. apply in_map_iff in Hl. destruct Hl as (e & <- & Hl). apply (mm_text_row show rnd e); apply He; auto.
Qed.

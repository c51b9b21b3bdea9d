(** Wavefunction files (C23). *)
From Coq Require Import Ascii String QArith Qcanon ZArith NArith Bool Lia Sorting.Permutation.
From Verif Require Import Base Bits BitsProofs SD Spec SDProofs SDProofs4 Ham Asci AsciSort Mem MemProofs Text TextProofs IO IOSpec.
Local Open Scope nat_scope.

Lemma prints_word show rnd v : prints show rnd v -> word is_space (show v).
Proof.
  intros (S & D & _). split; [intros E; rewrite E in D; destruct D|].
  apply forallb_forall. intros c Hc. rewrite S; auto.
Qed.
Lemma half_pos W : spin_width W -> 0 < W / 2 /\ W <= 128 /\ W = W / 2 + W / 2.
Proof. intros [-> | ->]; cbn; lia. Qed.
Lemma canon_word W s : spin_width W -> word is_space (to_canonical_string W s).
Proof.
  intros HW. split.
  - intros E. apply (f_equal (@List.length _)) in E. rewrite to_string_length in E. pose proof (half_pos W HW). cbn [List.length] in E. lia.
  - apply forallb_forall. intros c Hc. unfold to_canonical_string in Hc. apply in_map_iff in Hc.
    destruct Hc as (i & <- & _). unfold orb_char. destruct (tb _ i), (tb _ i); reflexivity.
Qed.
Lemma count_shl W s : spin_width W -> wf W s -> bs_count (bs_shl W s (W / 2)) = bs_count (alpha W s).
Proof.
  intros HW Hs. pose proof (half_pos W HW) as (H0 & H1 & H2). set (h := W / 2) in *.
  rewrite (count_positions W (bs_shl W s h)), (count_positions h (alpha W s)).
  - unfold positions.
    assert (E : seq 0 W = seq 0 h ++ seq (0 + h) h) by (rewrite <- seq_app; f_equal; exact H2).
    rewrite E, filter_app, app_length.
    rewrite filter_none by (intros i Hi; apply in_seq in Hi; rewrite tb_bs_shl;
      destruct (Nat.leb_spec h i); [lia|]; rewrite ?andb_false_r, ?andb_false_l; auto).
    cbn [List.length plus]. rewrite <- (map_length (fun i => i + h) (filter (tb (alpha W s)) (seq 0 h))). f_equal.
    assert (G : forall a n, a + n <= h -> filter (tb (bs_shl W s h)) (seq (a + h) n) = map (fun i => i + h) (filter (tb (alpha W s)) (seq a n))).
    { intros a n. revert a. induction n as [|n IH]; intros a Ha; auto. cbn [seq filter map].
      specialize (IH (S a) ltac:(lia)). cbn [plus] in IH. rewrite IH. 
      replace (tb (bs_shl W s h) (a + h)) with (tb (alpha W s) a). { destruct (tb (alpha W s) a); reflexivity. }
      rewrite tb_bs_shl. unfold alpha. fold h. rewrite tb_mod.
      destruct (Nat.ltb_spec a h), (Nat.leb_spec h (a + h)), (Nat.ltb_spec (a + h) W); try lia.
      cbn [andb]. f_equal. lia. }
    apply (G 0 h). lia.
  - intros i Hi. unfold alpha. fold h. rewrite tb_mod. destruct (Nat.ltb_spec i h); [lia|]. reflexivity.
  - intros i Hi. rewrite tb_bs_shl. destruct (Nat.ltb_spec i W); [lia|]. rewrite ?andb_false_r, ?andb_false_l. reflexivity.
Qed.
Lemma count_shr W s : bs_count (bs_shr s (W / 2)) = bs_count (beta W s).
Proof. f_equal. apply tb_ext. intros i. rewrite tb_bs_shr. unfold beta. rewrite tb_div. reflexivity. Qed.

Lemma word_no_nl t : forallb (fun c => negb (is_space c)) t = true -> forallb (fun c => negb (Ascii.eqb c nl)) t = true.
Proof.
  rewrite !forallb_forall. intros H c Hc. specialize (H c Hc). destruct (Ascii.eqb_spec c nl) as [->|]; auto.
Qed.
Lemma pad_no_nl w t : forallb (fun c => negb (Ascii.eqb c nl)) t = true ->
  forallb (fun c => negb (Ascii.eqb c nl)) (pad w t) = true.
Proof.
  intros H. unfold pad. rewrite forallb_app, H, andb_true_r. induction (w - List.length t); cbn; auto.
Qed.
Lemma show_no_nl n : forallb (fun c => negb (Ascii.eqb c nl)) (show_nat n) = true.
Proof. apply word_no_nl. apply show_word. Qed.
Lemma count_le W s : wf W s -> bs_count s <= W.
Proof.
  intros H. rewrite (count_positions W s H). unfold positions. rewrite <- (seq_length W 0) at 2.
  generalize (seq 0 W). induction l as [|x l IH]; cbn; auto. destruct (tb s x); cbn; lia.
Qed.
Lemma small n : n <= 128 -> (N.of_nat n < 2 ^ 31)%N.
Proof. intros H. change (2 ^ 31)%N with (N.of_nat 128 + 2147483520)%N. lia. Qed.
Lemma shl_count_small W s : spin_width W -> wf W s -> (N.of_nat (bs_count (bs_shl W s (W / 2))) < 2 ^ 31)%N.
Proof.
  intros HW Hs. apply small. pose proof (half_pos W HW) as (_ & H & _).
  pose proof (count_le W (bs_shl W s (W / 2))). 
  enough (wf W (bs_shl W s (W / 2))) by (specialize (H0 H1); lia).
  intros i Hi. rewrite tb_bs_shl. destruct (Nat.ltb_spec i W); [lia|]. rewrite ?andb_false_r, ?andb_false_l. reflexivity.
Qed.
Lemma shr_count_small W s : spin_width W -> wf W s -> (N.of_nat (bs_count (bs_shr s (W / 2))) < 2 ^ 31)%N.
Proof.
  intros HW Hs. apply small. pose proof (half_pos W HW) as (_ & H & _).
  pose proof (count_le W (bs_shr s (W / 2))). 
  enough (wf W (bs_shr s (W / 2))) by (specialize (H0 H1); lia).
  intros i Hi. rewrite tb_bs_shr. apply Hs. lia.
Qed.

Section Wfn.
  Variables (show : Qc -> text) (rnd : Q -> res Qc) (W norb : nat) (states : list N) (coeffs : list Qc).
  Hypotheses (HW : spin_width W) (Hlen : List.length states = List.length coeffs)
    (Hs : forall s, In s states -> wf W s) (Hc : forall v, In v coeffs -> prints show rnd v)
    (Hn : (N.of_nat (List.length states) < 2 ^ 31)%N) (Ho : (N.of_nat norb < 2 ^ 31)%N).

  Let header s0 := show_nat (List.length states) ++ [sp] ++ show_nat norb ++ [sp] ++
    show_nat (bs_count (bs_shl W s0 (W / 2))) ++ [sp] ++ show_nat (bs_count (bs_shr s0 (W / 2))).
  Let line i := pad 30 (show (nth i coeffs 0%Qc)) ++ [sp] ++ to_canonical_string W (nth i states 0%N) ++ [sp].

  Lemma header_words s0 : words (header s0) =
    [show_nat (List.length states); show_nat norb; show_nat (bs_count (bs_shl W s0 (W / 2)));
     show_nat (bs_count (bs_shr s0 (W / 2)))].
  Proof.
    unfold header, words. cbn [app]. rewrite !split_cons, split_word; auto; apply show_word.
  Qed.
  Lemma line_words i : i < List.length states ->
    words (line i) = [show (nth i coeffs 0%Qc); to_canonical_string W (nth i states 0%N)].
  Proof.
    intros Hi. unfold line, words. rewrite split_pad by auto. cbn [app]. rewrite !split_cons; auto.
    - apply canon_word, HW.
    - eapply prints_word, Hc, nth_In. lia.
  Qed.
  Lemma line_no_nl i : i < List.length states -> forallb (fun c => negb (Ascii.eqb c nl)) (line i) = true.
  Proof.
    intros Hi. unfold line. rewrite !forallb_app. cbn [forallb]. rewrite pad_no_nl.
    - rewrite word_no_nl; [reflexivity|apply canon_word, HW].
    - apply word_no_nl. eapply prints_word, Hc, nth_In. lia.
  Qed.
  Lemma header_no_nl s0 : forallb (fun c => negb (Ascii.eqb c nl)) (header s0) = true.
  Proof. unfold header. rewrite !forallb_app. cbn [forallb]. rewrite !show_no_nl. reflexivity. Qed.

  Lemma c23_round_trip old : states <> [] -> exists file,
    write_wavefunction show W norb states coeffs old = Ok file /\
    read_wavefunction rnd W file = Ok (states, coeffs) /\
    (exists rest, lines file = header (nth 0 states 0%N) :: rest /\ List.length rest = List.length states).
  Proof.
    intros Ne. unfold write_wavefunction. rewrite Hlen, Nat.eqb_refl. cbn [negb]. rewrite <- Hlen.
    assert (E0 : exists s0 r, states = s0 :: r) by (destruct states; [congruence|eauto]).
    destruct E0 as (s0 & r0 & E0).
    assert (W0 : wf W s0) by (apply Hs; rewrite E0; left; auto).
    assert (M : forall (k : N -> res text), match states with [] => Ok old | s :: _ => k s end = k s0) by (intros; rewrite E0; auto).
    rewrite M. cbv zeta. fold (header s0). fold line.
    eexists. split; [reflexivity|].
    assert (L : lines (flat_map (fun l => l ++ [nl]) (header s0 :: map line (seq 0 (List.length states)))) =
      header s0 :: map line (seq 0 (List.length states))).
    { apply lines_concat. intros l [<-|Hl]; [apply header_no_nl|]. apply in_map_iff in Hl. destruct Hl as (i & <- & Hi).
      apply in_seq in Hi. apply line_no_nl. lia. }
    split.
    - unfold read_wavefunction. rewrite L. cbv beta iota zeta. rewrite header_words. cbn [nth].
      rewrite !stoi_nat; auto using shl_count_small, shr_count_small. cbn [bind].
      destruct (Z.ltb_spec (Z.of_nat (List.length states)) 0); [lia|].
      assert (X : mapM (fun line0 => do s <- from_canonical_string W (nth 1 (words line0) []);
          do x <- stod rnd (nth 0 (words line0) []); Ok (s, x)) (map line (seq 0 (List.length states))) =
          Ok (map (fun i => (nth i states 0%N, nth i coeffs 0%Qc)) (seq 0 (List.length states)))).
      { assert (G : forall l, (forall i, In i l -> i < List.length states) ->
          mapM (fun line0 => do s <- from_canonical_string W (nth 1 (words line0) []);
          do x <- stod rnd (nth 0 (words line0) []); Ok (s, x)) (map line l) =
          Ok (map (fun i => (nth i states 0%N, nth i coeffs 0%Qc)) l)).
        { induction l as [|i l IH]; intros Hl; auto. cbn [map mapM]. assert (i < List.length states) by (apply Hl; left; auto).
          rewrite line_words by auto. cbn [nth]. rewrite from_to_string by (auto; apply Hs, nth_In; auto). cbn [bind].
          destruct (Hc (nth i coeffs 0%Qc)) as (_ & _ & ->); [apply nth_In; lia|]. cbn [bind].
          rewrite IH; auto. intros j Hj. apply Hl. right; auto. }
        apply G. intros i Hi. apply in_seq in Hi. lia. }
      rewrite X. cbn [bind]. rewrite !map_map. cbn [fst snd]. rewrite map_nth_seq, Hlen, map_nth_seq. reflexivity.
    - exists (map line (seq 0 (List.length states))). rewrite map_length, seq_length. split; [|reflexivity].
      rewrite E0 at 2. exact L.
  Qed.
End Wfn.

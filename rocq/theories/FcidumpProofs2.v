(** FCIDUMP files written by the library read back (C24). *)
From Coq Require Import Ascii String QArith Qcanon ZArith NArith Bool Lia.
From Verif Require Import Base Ham Asci Mem MemProofs Text TextProofs IO IOSpec IOProofs FcidumpProofs.
Local Open Scope nat_scope.

Lemma show_index n : (N.of_nat n < 2 ^ 31)%N -> is_index (show_nat n) n.
Proof.
  intros H. destruct (show_N_ok (N.of_nat n)) as (V & D & E). split; auto. split; [|split; auto].
  rewrite forallb_forall in D. auto.
Qed.
Definition fmt (show : Qc -> text) (e : integral) : text :=
  let '(p, q, r, s, v) := e in fcidump_format show p q r s v.
Lemma space_word t : word is_space t -> word (fun c => Ascii.eqb c sp) t.
Proof. apply word_sub. intros c H. apply Ascii.eqb_eq in H. subst. reflexivity. Qed.
Lemma fmt_line show rnd e : (forall i, In i (indices e) -> (N.of_nat i < 2 ^ 31)%N) -> prints show rnd (value e) ->
  data_line rnd (fmt show e) e /\ forallb (fun c => negb (Ascii.eqb c nl)) (fmt show e) = true.
Proof.
  destruct e as [[[[p q] r] s] v]. cbn [indices value snd fmt]. intros B P. split.
  - cbn [data_line]. exists (show_nat p), (show_nat q), (show_nat r), (show_nat s), (show v).
    split.
    + left. unfold fields, fcidump_format.
      pose proof (prints_word _ _ _ P) as Wv.
      rewrite split_pad by auto. cbn [app]. rewrite split_cons by (auto; apply space_word, show_word). f_equal.
      rewrite split_pad by auto. cbn [app]. rewrite split_cons by (auto; apply space_word, show_word). f_equal.
      rewrite split_pad by auto. cbn [app]. rewrite split_cons by (auto; apply space_word, show_word). f_equal.
      rewrite split_pad by auto. cbn [app]. rewrite split_cons by (auto; apply space_word, show_word). f_equal.
      rewrite <- (app_nil_r (pad 25 (show v))), split_pad, app_nil_r by auto. apply split_word, space_word, Wv.
    + destruct P as (_ & P1 & P2).
      split; [apply show_index, B; cbn; auto|]. split; [apply show_index, B; cbn; auto|].
      split; [apply show_index, B; cbn; auto|]. split; [apply show_index, B; cbn; auto 6|]. split; auto.
      exists "."%char. auto.
  - unfold fcidump_format. rewrite !forallb_app. cbn [forallb].
    rewrite !pad_no_nl; auto using show_no_nl. apply word_no_nl. eapply prints_word, P.
Qed.
Lemma fmt_lines show rnd es : (forall e, In e es -> (forall i, In i (indices e) -> (N.of_nat i < 2 ^ 31)%N) /\ prints show rnd (value e)) ->
  data_lines rnd (lines (flat_map (fun l => l ++ [nl]) (map (fmt show) es))) es.
Proof.
  intros H. rewrite lines_concat.
  - induction es as [|e es IH]; [constructor|]. cbn [map]. apply dl_data.
    + apply (fmt_line show rnd e); apply H; left; auto.
    + apply IH. intros e' He. apply H. right; auto.
  - intros l Hl. apply in_map_iff in Hl. destruct Hl as (e & <- & He). apply (fmt_line show rnd e); apply H; auto.
Qed.
Lemma last_value_const P es x : forall d, (forall e, In e es -> P e = true -> value e = x) ->
  (d = x \/ exists e, In e es /\ P e = true) -> last_value P es d = x.
Proof.
  unfold last_value. induction es as [|e es IH]; intros d H E; cbn [fold_left].
  - destruct E as [->|(e & [] & _)]. auto.
  - apply IH; [intros e' He; apply H; right; auto|]. destruct (P e) eqn:Pe.
    + left. apply H; auto. left; auto.
    + destruct E as [->|(e' & [->|He] & Pe')]; auto; [congruence|]. right. eauto.
Qed.

Section Write.
  Variables (show : Qc -> text) (rnd : Q -> res Qc) (norb : nat) (T : list Qc) (LDT : nat) (V : list Qc) (LDV : nat) (E_core : Qc).
  Let t i j := nth (i + j * LDT) T 0%Qc.
  Let v i j k l := nth (i + j * LDV + k * LDV * LDV + l * LDV * LDV * LDV) V 0%Qc.
  Hypotheses (Hn : (N.of_nat norb < 2 ^ 31)%N)
    (HT : forall i j, i < norb -> j < norb -> i + j * LDT < List.length T)
    (HV : forall i j k l, i < norb -> j < norb -> k < norb -> l < norb ->
       i + j * LDV + k * LDV * LDV + l * LDV * LDV * LDV < List.length V)
    (Pt : forall i j, i < norb -> j < norb -> prints show rnd (t i j))
    (Pv : forall i j k l, i < norb -> j < norb -> k < norb -> l < norb -> prints show rnd (v i j k l))
    (Pe : prints show rnd E_core).

  Let two : list integral := map (fun ijkl => let '(i, (j, (k, l))) := ijkl in (i + 1, j + 1, k + 1, l + 1, v i j k l))
    (list_prod (seq 0 norb) (list_prod (seq 0 norb) (list_prod (seq 0 norb) (seq 0 norb)))).
  Let one : list integral := map (fun ij => let '(i, j) := ij in (i + 1, j + 1, 0, 0, t i j))
    (list_prod (seq 0 norb) (seq 0 norb)).
  Let es : list integral := two ++ one ++ [(0, 0, 0, 0, E_core)].

  Lemma write_run : exists file, write_fcidump show false norb T LDT V LDV E_core = Ok file /\
    file = flat_map (fun l => l ++ [nl]) (map (fmt show) es).
  Proof.
    unfold write_fcidump.
    rewrite (mapM_ok _ (fun ijkl => let '(i, (j, (k, l))) := ijkl in fmt show (i + 1, j + 1, k + 1, l + 1, v i j k l))).
    2:{ intros (i & j & k & l) H. rewrite !in_prod_iff, !in_seq in H. rewrite (at_ok V _ 0%Qc) by (apply HV; lia). reflexivity. }
    cbn [bind].
    rewrite (mapM_ok _ (fun ij => let '(i, j) := ij in fmt show (i + 1, j + 1, 0, 0, t i j))).
    2:{ intros (i & j) H. rewrite !in_prod_iff, !in_seq in H. rewrite (at_ok T _ 0%Qc) by (apply HT; lia). reflexivity. }
    cbn [bind]. eexists. split; [reflexivity|]. f_equal. unfold es, two, one. rewrite !map_app, !map_map. f_equal; [|f_equal].
    - apply map_ext. intros (i & j & k & l). reflexivity.
    - apply map_ext. intros (i & j). reflexivity.
  Qed.
  Lemma es_in e : In e es ->
    (exists i j k l, i < norb /\ j < norb /\ k < norb /\ l < norb /\ e = (i + 1, j + 1, k + 1, l + 1, v i j k l)) \/
    (exists i j, i < norb /\ j < norb /\ e = (i + 1, j + 1, 0, 0, t i j)) \/ e = (0, 0, 0, 0, E_core).
  Proof.
    unfold es. rewrite !in_app_iff. intros [H|[H|[H|[]]]]; auto.
    - left. unfold two in H. apply in_map_iff in H. destruct H as ((i & j & k & l) & <- & H). rewrite !in_prod_iff, !in_seq in H.
      exists i, j, k, l. repeat split; lia.
    - right; left. unfold one in H. apply in_map_iff in H. destruct H as ((i & j) & <- & H). rewrite !in_prod_iff, !in_seq in H.
      exists i, j. repeat split; lia.
  Qed.
  Lemma two_in i j k l : i < norb -> j < norb -> k < norb -> l < norb -> In (i + 1, j + 1, k + 1, l + 1, v i j k l) es.
  Proof.
    intros. unfold es. apply in_or_app. left. unfold two. apply in_map_iff. exists (i, (j, (k, l))). split; auto.
    rewrite !in_prod_iff, !in_seq. lia.
  Qed.
  Lemma one_in i j : i < norb -> j < norb -> In (i + 1, j + 1, 0, 0, t i j) es.
  Proof.
    intros. unfold es. apply in_or_app. right. apply in_or_app. left. unfold one. apply in_map_iff. exists (i, j). split; auto.
    rewrite !in_prod_iff, !in_seq. lia.
  Qed.
  Lemma es_data : data_lines rnd (lines (flat_map (fun l => l ++ [nl]) (map (fmt show) es))) es.
  Proof.
    apply fmt_lines. intros e He. apply es_in in He. assert (B : forall i, i <= norb -> (N.of_nat i < 2 ^ 31)%N) by (intros; lia).
    destruct He as [(i & j & k & l & Hi & Hj & Hk & Hl & ->)|[(i & j & Hi & Hj & ->)| ->]]; cbn [indices value snd].
    - split; [|apply Pv; auto]. intros x Hx. cbn in Hx. apply B. lia.
    - split; [|apply Pt; auto]. intros x Hx. cbn in Hx. apply B. lia.
    - split; auto. intros x Hx. cbn in Hx. apply B. lia.
  Qed.
  Lemma es_proper e : In e es -> proper e.
  Proof.
    intros He. apply es_in in He.
    destruct He as [(i & j & k & l & Hi & Hj & Hk & Hl & ->)|[(i & j & Hi & Hj & ->)| ->]].
    - right; right. cbn. lia.
    - right; left. cbn. lia.
    - left. reflexivity.
  Qed.
  Lemma es_norb : max_index es = norb.
  Proof.
    apply Nat.le_antisymm.
    - unfold max_index. enough (G : forall l, (forall x, In x l -> x <= norb) -> fold_right Nat.max 0 l <= norb).
      { apply G. intros x Hx. apply in_flat_map in Hx. destruct Hx as (e & He & Hx). apply es_in in He.
        destruct He as [(i & j & k & l & Hi & Hj & Hk & Hl & ->)|[(i & j & Hi & Hj & ->)| ->]]; cbn in Hx; lia. }
      induction l as [|x l IH]; intros H; cbn [fold_right]; [lia|]. assert (x <= norb) by (apply H; left; auto).
      specialize (IH ltac:(intros y Hy; apply H; right; auto)). lia.
    - destruct (Nat.eq_dec norb 0) as [E0|E0]; [rewrite E0; lia|].
      assert (M : norb <= max_index es); [|exact M].
      apply (max_bound es ((norb - 1) + 1, (norb - 1) + 1, 0, 0, t (norb - 1) (norb - 1))).
      + apply one_in; lia.
      + cbn. lia.
  Qed.
  Lemma es_core : first_core es = E_core.
  Proof.
    assert (G : forall l r, (forall e, In e l -> one_data e \/ two_data e) -> first_core (l ++ r) = first_core r).
    { induction l as [|e l IH]; intros r H; auto. cbn [app first_core].
      replace (forallb (fun i => i =? 0) (indices e)) with false. { apply IH. intros e' He. apply H. right; auto. }
      destruct e as [[[[p q] r0] s] x]. cbn [indices forallb].
      destruct (Nat.eqb_spec p 0); auto. exfalso. destruct (H _ (or_introl eq_refl)) as [X|X]; cbn in X; lia. }
    unfold es. rewrite G, G; [reflexivity| |].
    - intros e He. left. unfold one in He. apply in_map_iff in He. destruct He as ((i & j) & <- & _). cbn. lia.
    - intros e He. right. unfold two in He. apply in_map_iff in He. destruct He as ((i & j & k & l) & <- & _). cbn. lia.
  Qed.

  Lemma written_data : exists file es', write_fcidump show false norb T LDT V LDV E_core = Ok file /\ data_lines rnd (lines file) es' /\
    (forall e, In e es' -> proper e) /\ max_index es' = norb /\ first_core es' = E_core.
  Proof.
    destruct write_run as (file & W & ->). eexists. exists es. split; [exact W|]. split; [exact es_data|]. split; [exact es_proper|]. split; [exact es_norb|exact es_core].
  Qed.
  Hypothesis (St : forall i j, i < norb -> j < norb -> t i j = t j i).
  Hypothesis (Sv : forall i j k l, i < norb -> j < norb -> k < norb -> l < norb ->
     v i j k l = v j i k l /\ v i j k l = v i j l k /\ v i j k l = v k l i j).

  Lemma same_pair_spec a b p q : same_pair a b p q = true <-> (a = p /\ b = q) \/ (a = q /\ b = p).
  Proof. unfold same_pair. rewrite orb_true_iff, !andb_true_iff, !Nat.eqb_eq. tauto. Qed.

  Lemma c24_round_trip : exists file,
    write_fcidump show false norb T LDT V LDV E_core = Ok file /\
    read_fcidump_norb rnd file = Ok norb /\
    read_fcidump_core rnd file = Ok E_core /\
    (forall T0, List.length T0 = norb * norb -> exists T', read_fcidump_1body_raw rnd file T0 norb = Ok T' /\
       List.length T' = norb * norb /\ forall p q, p < norb -> q < norb -> nth (pos2 norb p q) T' 0%Qc = t p q) /\
    (forall V0, List.length V0 = norb * (norb * (norb * norb)) -> exists V', read_fcidump_2body_raw rnd file V0 norb = Ok V' /\
       List.length V' = List.length V0 /\
       forall p q r s, p < norb -> q < norb -> r < norb -> s < norb -> nth (pos4 norb p q r s) V' 0%Qc = v p q r s).
  Proof.
    destruct write_run as (file & W & ->). eexists. split; [exact W|]. pose proof es_data as D.
    rewrite (norb_ok _ _ _ D), (core_ok _ _ _ D), es_norb, es_core. split; auto. split; auto. split.
    - intros T0 L. pose proof (c24_one rnd _ es D es_proper T0) as X. rewrite es_norb in X.
      destruct (X L) as (T' & R & LT & N). exists T'. split; auto. split; auto.
      intros p q Hp Hq. rewrite N by auto. apply last_value_const.
      + intros e He M. apply es_in in He.
        destruct He as [(i & j & k & l & Hi & Hj & Hk & Hl & ->)|[(i & j & Hi & Hj & ->)| ->]]; cbn [one_at value snd] in *.
        * rewrite !andb_true_iff, Nat.eqb_eq in M. lia.
        * cbn [Nat.eqb andb] in M. apply same_pair_spec in M.
          destruct M as [[M1 M2]|[M1 M2]]; [replace i with p by lia; replace j with q by lia|replace i with q by lia; replace j with p by lia]; auto.
        * cbn [Nat.eqb andb] in M. apply same_pair_spec in M. lia.
      + right. exists (p + 1, q + 1, 0, 0, t p q). split; [apply one_in; auto|]. cbn [one_at Nat.eqb andb]. apply same_pair_spec. lia.
    - intros V0 L. pose proof (c24_two rnd _ es D V0) as X. rewrite es_norb in X.
      destruct (X L) as (V' & R & LT & N). exists V'. split; auto. split; auto.
      intros p q r s Hp Hq Hr Hs. rewrite N by auto. apply last_value_const.
      + intros e He M. apply es_in in He.
        destruct He as [(i & j & k & l & Hi & Hj & Hk & Hl & ->)|[(i & j & Hi & Hj & ->)| ->]]; cbn [two_at value snd] in *;
          rewrite orb_true_iff, !andb_true_iff, !same_pair_spec in M; try lia.
        assert (Sv1 : forall a b c d, a < norb -> b < norb -> c < norb -> d < norb -> v a b c d = v b a c d) by (intros; apply Sv; auto).
        assert (Sv2 : forall a b c d, a < norb -> b < norb -> c < norb -> d < norb -> v a b c d = v a b d c) by (intros; apply Sv; auto).
        assert (Sv3 : forall a b c d, a < norb -> b < norb -> c < norb -> d < norb -> v a b c d = v c d a b) by (intros; apply Sv; auto).
        destruct M as [[[[A1 A2]|[A1 A2]] [[A3 A4]|[A3 A4]]]|[[[A1 A2]|[A1 A2]] [[A3 A4]|[A3 A4]]]].
        * replace i with p by lia; replace j with q by lia; replace k with r by lia; replace l with s by lia. auto.
        * replace i with p by lia; replace j with q by lia; replace k with s by lia; replace l with r by lia. apply Sv2; auto.
        * replace i with q by lia; replace j with p by lia; replace k with r by lia; replace l with s by lia. apply Sv1; auto.
        * replace i with q by lia; replace j with p by lia; replace k with s by lia; replace l with r by lia. rewrite Sv1; auto.
        * replace i with r by lia; replace j with s by lia; replace k with p by lia; replace l with q by lia. apply Sv3; auto.
        * replace i with r by lia; replace j with s by lia; replace k with q by lia; replace l with p by lia. rewrite Sv2; auto.
        * replace i with s by lia; replace j with r by lia; replace k with p by lia; replace l with q by lia. rewrite Sv1; auto.
        * replace i with s by lia; replace j with r by lia; replace k with q by lia; replace l with p by lia. rewrite Sv1, Sv2; auto.
      + right. exists (p + 1, q + 1, r + 1, s + 1, v p q r s). split; [apply two_in; auto|]. unfold two_at.
        rewrite orb_true_iff, !andb_true_iff, !same_pair_spec. lia.
  Qed.
End Write.

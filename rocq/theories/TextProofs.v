(** Lemmas about text and binary files. *)
From Coq Require Import Ascii String QArith Qcanon ZArith NArith Bool Lia.
From Verif Require Import Base Text.
Local Open Scope nat_scope.

Lemma code_digit d : (d < 10)%N -> code (ascii_of_N (48 + d)) = (48 + d)%N.
Proof. intros H. unfold code. apply N_ascii_embedding. lia. Qed.
Lemma digit_ok n : is_digit (ascii_of_N (48 + n mod 10)) = true /\
  digit_val (ascii_of_N (48 + n mod 10)) = (n mod 10)%N.
Proof.
  assert (n mod 10 < 10)%N as H by (apply N.mod_lt; discriminate).
  unfold is_digit, digit_val. rewrite code_digit by auto. generalize dependent (n mod 10)%N. intros d H. split; [|lia].
  apply andb_true_intro; split; apply N.leb_le; lia.
Qed.
Lemma digits_loop_ok f : forall n, (n < 2 ^ N.of_nat f)%N ->
  digits_val (digits_loop f n) = n /\ forallb is_digit (digits_loop f n) = true /\ digits_loop f n <> [].
Proof.
  induction f as [|f IH]; intros n H.
  - cbn [digits_loop]. cbn in H. assert (n = 0)%N by lia. subst. vm_compute. repeat split; auto. discriminate.
  - cbn [digits_loop]. destruct (N.ltb_spec n 10) as [L|L].
    + pose proof (digit_ok n) as [D1 D2]. unfold digits_val. cbn [fold_left forallb]. rewrite D1, D2.
      rewrite N.mod_small by auto. split; [lia|]. split; [reflexivity|discriminate].
    + rewrite Nat2N.inj_succ, N.pow_succ_r' in H.
      assert (H' : (n / 10 < 2 ^ N.of_nat f)%N) by (apply N.div_lt_upper_bound; lia).
      destruct (IH _ H') as (V & D & E). pose proof (digit_ok n) as [D1 D2].
      unfold digits_val in *. rewrite fold_left_app, V. cbn [fold_left]. rewrite D2.
      split; [symmetry; apply (N.div_mod n 10); discriminate|].
      split; [|intros C; apply app_eq_nil in C; destruct C; discriminate].
      rewrite forallb_app, D. cbn [forallb]. rewrite D1. reflexivity.
Qed.
Lemma show_N_ok n : digits_val (show_N n) = n /\ forallb is_digit (show_N n) = true /\ show_N n <> [].
Proof. apply digits_loop_ok. rewrite N2Nat.id. apply N.size_gt. Qed.

Lemma digit_code c : is_digit c = true -> (48 <= code c <= 57)%N.
Proof. unfold is_digit. rewrite andb_true_iff, !N.leb_le. auto. Qed.
Lemma digit_not_space c : is_digit c = true -> is_space c = false.
Proof.
  intros H%digit_code. unfold is_space. apply orb_false_intro; [apply N.eqb_neq; lia|].
  apply andb_false_iff. right. apply N.leb_gt. lia.
Qed.
Lemma digit_not_alpha c : is_digit c = true -> is_alpha c = false.
Proof.
  intros H%digit_code. unfold is_alpha. apply orb_false_intro; apply andb_false_iff; left; apply N.leb_gt; lia.
Qed.
Lemma digit_neq c d : is_digit c = true -> is_digit d = false -> Ascii.eqb c d = false.
Proof. intros H1 H2. destruct (Ascii.eqb_spec c d); congruence. Qed.
Lemma space_neq c d : is_space c = false -> is_space d = true -> Ascii.eqb c d = false.
Proof. intros H1 H2. destruct (Ascii.eqb_spec c d); congruence. Qed.

Lemma take_while_all p s rest : forallb p s = true -> (match rest with [] => True | c :: _ => p c = false end) ->
  take_while p (s ++ rest) = s /\ drop_while p (s ++ rest) = rest.
Proof.
  intros H Hr. induction s as [|c s IH]; cbn [app take_while drop_while].
  - destruct rest as [|c r]; auto. cbn. rewrite Hr. auto.
  - cbn [forallb] in H. apply andb_true_iff in H. destruct H as [-> H]. destruct (IH H) as [-> ->]. auto.
Qed.
Lemma drop_while_none p s : (match s with [] => True | c :: _ => p c = false end) -> drop_while p s = s.
Proof. destruct s; cbn; auto. intros ->. auto. Qed.

(* a number read back from what was written, followed by a non-digit or nothing *)
Lemma sto_show bits n rest : (Z.of_N n < 2 ^ Z.of_N (bits - 1))%Z ->
  (match rest with [] => True | c :: _ => is_digit c = false end) ->
  sto bits (show_N n ++ rest) = Ok (Z.of_N n).
Proof.
  intros L Hr. destruct (show_N_ok n) as (V & D & E). unfold sto.
  assert (H0 : exists c t, show_N n = c :: t /\ is_digit c = true).
  { destruct (show_N n) as [|c t]; [congruence|]. exists c, t. split; auto.
    cbn [forallb] in D. apply andb_true_iff in D. apply D. }
  destruct H0 as (c & t & Ec & Dc).
  rewrite drop_while_none by (rewrite Ec; cbn; apply digit_not_space, Dc).
  replace (take_sign (show_N n ++ rest)) with (false, show_N n ++ rest).
  2:{ rewrite Ec. cbn [app take_sign]. rewrite !digit_neq; auto. }
  destruct (take_while_all is_digit (show_N n) rest D Hr) as [-> _]. rewrite V, Ec.
  replace ((- 2 ^ Z.of_N (bits - 1) <=? Z.of_N n) && (Z.of_N n <? 2 ^ Z.of_N (bits - 1)))%Z with true; auto.
  symmetry. apply andb_true_intro. split; [apply Z.leb_le|apply Z.ltb_lt]; lia.
Qed.
Lemma sto_show' bits n : (Z.of_N n < 2 ^ Z.of_N (bits - 1))%Z -> sto bits (show_N n) = Ok (Z.of_N n).
Proof. intros. rewrite <- (app_nil_r (show_N n)). apply sto_show; cbn; auto. Qed.
Lemma stoi_nat n : (N.of_nat n < 2 ^ 31)%N -> stoi (show_nat n) = Ok (Z.of_nat n).
Proof.
  intros H. unfold stoi, show_nat. rewrite sto_show'; rewrite nat_N_Z; auto.
  cbn [N.sub Pos.sub_mask Pos.pred_double Z.of_N]. change (Z.of_N (32 - 1)) with 31%Z.
  change (2 ^ 31)%N with (Z.to_N (2 ^ 31)) in H. lia.
Qed.
Lemma stoll_nat n : (N.of_nat n < 2 ^ 63)%N -> stoll (show_nat n) = Ok (Z.of_nat n).
Proof.
  intros H. unfold stoll, show_nat. rewrite sto_show'; rewrite nat_N_Z; auto.
  change (Z.of_N (64 - 1)) with 63%Z.
  change (2 ^ 63)%N with (Z.to_N (2 ^ 63)) in H. lia.
Qed.

(** a word: non-empty, no white space *)
Definition word (p : ascii -> bool) (t : text) : Prop := t <> [] /\ forallb (fun c => negb (p c)) t = true.
Lemma show_word n : word is_space (show_N n).
Proof.
  destruct (show_N_ok n) as (_ & D & E). split; auto. rewrite forallb_forall in *. intros c Hc.
  rewrite digit_not_space; auto.
Qed.
Lemma word_sub (p q : ascii -> bool) t : (forall c, q c = true -> p c = true) -> word p t -> word q t.
Proof.
  intros H [E W]. split; auto. rewrite forallb_forall in *. intros c Hc. specialize (W c Hc).
  destruct (q c) eqn:Q; auto. rewrite (H _ Q) in W. discriminate.
Qed.

Lemma lines_cons l rest : forallb (fun c => negb (Ascii.eqb c nl)) l = true -> lines (l ++ nl :: rest) = l :: lines rest.
Proof.
  induction l as [|c l IH]; intros H; cbn [app lines].
  - rewrite Ascii.eqb_refl. reflexivity.
  - cbn [forallb] in H. apply andb_true_iff in H. destruct H as [H1 H2]. apply negb_true_iff in H1. rewrite H1, IH; auto.
Qed.
Lemma lines_concat ls : (forall l, In l ls -> forallb (fun c => negb (Ascii.eqb c nl)) l = true) ->
  lines (flat_map (fun l => l ++ [nl]) ls) = ls.
Proof.
  induction ls as [|l ls IH]; intros H; cbn [flat_map]; auto.
  rewrite <- app_assoc. cbn [app]. rewrite lines_cons by (apply H; left; auto). rewrite IH; auto.
  intros l' Hl. apply H. right; auto.
Qed.

Lemma split_word p t : word p t -> split_by p t = [t].
Proof.
  intros [E W]. induction t as [|c t IH]; [congruence|]. cbn [forallb] in W. apply andb_true_iff in W. destruct W as [W1 W2].
  apply negb_true_iff in W1. cbn [split_by]. rewrite W1. destruct t as [|c' t]; auto.
  cbn [forallb] in W2. pose proof W2 as W3. apply andb_true_iff in W3. destruct W3 as [W3 _]. apply negb_true_iff in W3.
  rewrite W3, IH; auto. discriminate.
Qed.
Lemma split_cons p t c rest : word p t -> p c = true -> split_by p (t ++ c :: rest) = t :: split_by p rest.
Proof.
  intros [E W] Hc. induction t as [|d t IH]; [congruence|]. cbn [forallb] in W. apply andb_true_iff in W. destruct W as [W1 W2].
  apply negb_true_iff in W1. cbn [app split_by]. rewrite W1. destruct t as [|c' t].
  - cbn [app]. rewrite Hc. cbn [split_by]. rewrite Hc. reflexivity.
  - cbn [forallb] in W2. pose proof W2 as W3. apply andb_true_iff in W3. destruct W3 as [W3 _]. apply negb_true_iff in W3.
    cbn [app]. rewrite W3. cbn [app] in IH. rewrite IH; auto. discriminate.
Qed.
Lemma split_skip p c rest : p c = true -> split_by p (c :: rest) = split_by p rest.
Proof. intros H. cbn [split_by]. rewrite H. reflexivity. Qed.
Lemma split_skips p k c rest : p c = true -> split_by p (repeat c k ++ rest) = split_by p rest.
Proof. intros H. induction k; cbn [repeat app]; auto. rewrite split_skip; auto. Qed.
Lemma split_pad p w t rest : p sp = true -> split_by p (pad w t ++ rest) = split_by p (t ++ rest).
Proof. intros H. unfold pad. rewrite <- app_assoc, split_skips; auto. Qed.

(** bytes *)
Lemma to_bytes_len k : forall n, length (to_bytes k n) = k.
Proof. induction k; intros; cbn; auto. Qed.
Lemma of_to_bytes k : forall n, (n < 256 ^ N.of_nat k)%N -> of_bytes (to_bytes k n) = n.
Proof.
  induction k as [|k IH]; intros n H; cbn [to_bytes of_bytes].
  - cbn in H. lia.
  - rewrite Nat2N.inj_succ, N.pow_succ_r' in H. rewrite IH.
    + rewrite (N.div_mod n 256) at 3 by discriminate. lia.
    + apply N.div_lt_upper_bound; [discriminate|auto].
Qed.
Lemma take_bytes_app k a b : length a = k -> take_bytes k (a ++ b) = Ok (a, b).
Proof.
  intros <-. unfold take_bytes. rewrite app_length. destruct (Nat.ltb_spec (length a + length b) (length a)); [lia|].
  rewrite firstn_app, firstn_all, Nat.sub_diag, skipn_app, skipn_all, Nat.sub_diag, app_nil_r. reflexivity.
Qed.
Lemma take_objects_app k ls rest : (forall l, In l ls -> length l = k) ->
  take_objects (length ls) k (concat ls ++ rest) = Ok (ls, rest).
Proof.
  induction ls as [|l ls IH]; intros H; cbn [length take_objects concat app]; auto.
  rewrite <- app_assoc, take_bytes_app by (apply H; left; auto). cbn [bind fst snd]. rewrite IH; auto.
  intros l' Hl. apply H. right; auto.
Qed.

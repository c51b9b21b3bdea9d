(** The reader of the standalone driver's input file. *)
From Coq Require Import Ascii String QArith Qcanon ZArith NArith Bool Lia.
From Verif Require Import Base Ham Asci Text TextProofs Ini IniSpec.
Local Open Scope nat_scope.

(** ** Positions *)
Lemma find_char_none c s : ~ In c s -> find_char c s = None.
Proof.
  induction s as [|d s IH]; cbn; auto. intros H. destruct (Ascii.eqb_spec d c) as [->|N]; [tauto|]. rewrite IH; auto.
Qed.
Lemma find_char_app c s r : ~ In c s -> find_char c (s ++ r) = option_map (fun k => List.length s + k) (find_char c r).
Proof.
  induction s as [|d s IH]; cbn; intros H.
  - destruct (find_char c r); reflexivity.
  - destruct (Ascii.eqb_spec d c) as [->|N]; [tauto|]. rewrite IH by tauto. destruct (find_char c r); reflexivity.
Qed.
Lemma find_char_here c s r : ~ In c s -> find_char c (s ++ c :: r) = Some (List.length s).
Proof. intros H. rewrite find_char_app by auto. cbn. rewrite Ascii.eqb_refl. cbn. f_equal. lia. Qed.
Lemma find_char_in c s : found (find_char c s) = true <-> In c s.
Proof.
  induction s as [|d s IH]; cbn.
  - split; [discriminate|tauto].
  - destruct (Ascii.eqb_spec d c) as [->|N]; [split; auto|]. destruct (find_char c s); cbn in *; intuition congruence.
Qed.
Lemma find_not_at c d n r x : x <> c -> d <> c ->
  same_pos (find_char c (repeat d n ++ x :: r)) (Some n) = false.
Proof.
  intros Hx Hd. assert (~ In c (repeat d n)) as H. { intros E%repeat_spec. congruence. }
  rewrite find_char_app by auto. rewrite repeat_length. cbn. destruct (Ascii.eqb_spec x c); [congruence|].
  destruct (find_char c r); cbn; auto. apply Nat.eqb_neq. lia.
Qed.
Lemma find_first_not_at c n x r : x <> c -> find_first_not c (repeat c n ++ x :: r) = Some n.
Proof.
  intros H. induction n as [|n IH]; cbn.
  - destruct (Ascii.eqb_spec x c); congruence.
  - rewrite Ascii.eqb_refl, IH. reflexivity.
Qed.
Lemma find_first_not_all c n : find_first_not c (repeat c n) = None.
Proof. induction n; cbn; auto. rewrite Ascii.eqb_refl, IHn. reflexivity. Qed.
Lemma rev_repeat' {A} (x : A) n : rev (repeat x n) = repeat x n.
Proof. induction n; cbn; auto. rewrite IHn. symmetry. change (x :: repeat x n) with (repeat x (S n)).
  replace (S n) with (n + 1) by lia. rewrite repeat_app. reflexivity. Qed.
Lemma find_last_not_at c s x m : x <> c -> find_last_not c (s ++ x :: repeat c m) = Some (List.length s).
Proof.
  intros H. unfold find_last_not. rewrite rev_app_distr. cbn [rev]. rewrite rev_repeat', <- app_assoc. cbn [app].
  rewrite find_first_not_at by auto. cbn [option_map]. f_equal. rewrite app_length. cbn [List.length]. rewrite repeat_length. lia.
Qed.

(** ** Trimming *)
Lemma drop_while_app p a b : forallb p a = true -> drop_while p (a ++ b) = drop_while p b.
Proof. induction a as [|x a IH]; cbn; auto. intros H%andb_prop. destruct H as [-> H]. auto. Qed.
Lemma blank_spaces b : blank b -> forallb is_space b = true.
Proof. intros H. apply forallb_forall. intros c Hc. apply (H c Hc). Qed.
Lemma forallb_rev {A} (p : A -> bool) l : forallb p (rev l) = forallb p l.
Proof.
  induction l as [|x l IH]; auto. cbn [rev]. rewrite forallb_app, IH. cbn. rewrite andb_true_r. apply andb_comm.
Qed.
Lemma last_hd (s : text) d : last s d = hd d (rev s).
Proof.
  destruct s as [|x s] using rev_ind; auto. rewrite last_last, rev_app_distr. reflexivity.
Qed.
Lemma trim_right_app s b : forallb is_space b = true -> s <> [] -> is_space (last s sp) = false -> trim_right (s ++ b) = s.
Proof.
  intros Hb Hs Hl. unfold trim_right. rewrite rev_app_distr, drop_while_app by (rewrite forallb_rev; auto).
  rewrite drop_while_none; [apply rev_involutive|]. rewrite last_hd in Hl. destruct (rev s); auto.
Qed.
Lemma trim_left_app s b : forallb is_space b = true -> s <> [] -> is_space (hd sp s) = false -> trim_left (b ++ s) = s.
Proof.
  intros Hb Hs Hl. unfold trim_left. rewrite drop_while_app by auto. apply drop_while_none. destruct s; auto.
Qed.
Lemma trim_id s : trimmed s -> trim s = s.
Proof.
  intros (N & H & L). unfold trim. replace s with (s ++ []) at 1 by apply app_nil_r.
  rewrite trim_right_app by auto. apply (trim_left_app s []); auto.
Qed.
Lemma trim_after s b : trimmed s -> blank b -> trim (s ++ b) = s.
Proof.
  intros (N & H & L) Hb. unfold trim. rewrite trim_right_app by (auto using blank_spaces). apply (trim_left_app s []); auto.
Qed.
Lemma last_app (a b : text) d : b <> [] -> last (a ++ b) d = last b d.
Proof.
  intros H. destruct b as [|x b] using rev_ind; [congruence|]. rewrite app_assoc, !last_last. reflexivity.
Qed.
Lemma trim_before s b : trimmed s -> blank b -> trim (b ++ s) = s.
Proof.
  intros (N & H & L) Hb. unfold trim. replace (b ++ s) with ((b ++ s) ++ []) by apply app_nil_r. rewrite trim_right_app; auto.
  - apply trim_left_app; auto using blank_spaces.
  - destruct b; cbn; congruence.
  - rewrite last_app by auto. auto.
Qed.

(** ** What is left of a line without its comment and trailing spaces *)
Definition stripped (line : text) : text :=
  trim_right (match find_char "#" line with Some k => firstn k line | None => line end).
Lemma hash_not_space b : blank b -> ~ In "#"%char b.
Proof. intros H I. destruct (H _ I) as [E _]. discriminate. Qed.
Lemma stripped_ok body rest : ~ In "#"%char body -> body <> [] -> is_space (last body sp) = false -> trailer rest ->
  stripped (body ++ rest) = body.
Proof.
  intros Hc Hn Hl (b & Hb & [->|(c & Hcc & ->)]); unfold stripped.
  - rewrite find_char_none. { apply trim_right_app; auto using blank_spaces. }
    intros I%in_app_or. destruct I; [auto|]. eapply hash_not_space; eauto.
  - rewrite app_assoc, find_char_here.
    + rewrite firstn_app, Nat.sub_diag, firstn_all, firstn_O, app_nil_r. apply trim_right_app; auto using blank_spaces.
    + intros I%in_app_or. destruct I; [auto|]. eapply hash_not_space; eauto.
Qed.
Lemma hash_later n x r : x <> "#"%char -> same_pos (find_char "#" (repeat sp n ++ x :: r)) (Some n) = false.
Proof. intros H. apply find_not_at; auto. discriminate. Qed.

(** ** One line *)
Definition act (st : pstate) (n : nat) (lastNonSpace : option nat) (line : text) : res pstate :=
  let sectionLine := same_pos (find_char "[" line) (Some n) && same_pos (find_char "]" line) lastNonSpace in
  let dataLine := found (find_char "=" line) || found (find_char ":" line) in
  let multiLine := p_prev st && match line with c :: _ => Ascii.eqb c sp | [] => false end in
  if sectionLine then
    do line <- substr n line;
    let header := upper (firstn (List.length line - 2) (skipn 1 line)) in
    Ok {| p_dict := assign header [] (p_dict st); p_parse := true; p_prev := false; p_section := header; p_data := p_data st |}
  else
    do x <- (if p_parse st && dataLine then
               do line <- substr n line;
               match map trim (split_by is_assign line) with
               | [] => Err UB
               | t0 :: rest =>
                 let header := upper t0 in
                 let value := match rest with t1 :: _ => t1 | [] => [sp] end in
                 Ok (line, {| p_dict := set2 (p_section st) header value (p_dict st); p_parse := p_parse st; p_prev := true;
                              p_section := p_section st; p_data := header |})
               end
             else Ok (line, st));
    let '(line, st) := x in
    if p_parse st && multiLine then
      do line <- substr n line;
      Ok {| p_dict := append2 (p_section st) (p_data st) (nl :: line) (p_dict st); p_parse := p_parse st; p_prev := p_prev st;
            p_section := p_section st; p_data := p_data st |}
    else Ok st.
Lemma parse_line_act st n x r : x <> sp -> x <> "#"%char ->
  let line := repeat sp n ++ x :: r in
  parse_line st line = act st n (find_last_not sp line) (stripped line).
Proof.
  intros Hs Hc line. unfold parse_line. destruct line as [|c0 l0] eqn:E. { destruct n; discriminate. } rewrite <- E.
  cbv zeta. unfold line. rewrite find_first_not_at, hash_later by auto. reflexivity.
Qed.
Lemma substr_spaces n (t : text) : substr n (repeat sp n ++ t) = Ok t.
Proof.
  unfold substr. rewrite app_length, repeat_length. destruct (Nat.ltb_spec (n + List.length t) n); [lia|].
  rewrite skipn_app, repeat_length, Nat.sub_diag, skipn_all2 by (rewrite repeat_length; lia). reflexivity.
Qed.
Lemma no_sp c n : c <> sp -> ~ In c (repeat sp n).
Proof. intros H E%repeat_spec. congruence. Qed.
Lemma trimmed_cons t : trimmed t -> exists x r, t = x :: r /\ is_space x = false.
Proof. intros (N & H & _). destruct t as [|x r]; [congruence|]. exists x, r. auto. Qed.
Lemma spaces_trailer m : trailer (repeat sp m).
Proof. exists (repeat sp m). split; auto. intros c ->%repeat_spec. split; [reflexivity|discriminate]. Qed.

Lemma line_heading st n name m : without ["]"; "#"; nl]%char name ->
  parse_line st (repeat sp n ++ "["%char :: name ++ "]"%char :: repeat sp m) =
  Ok {| p_dict := assign (upper name) [] (p_dict st); p_parse := true; p_prev := false; p_section := upper name; p_data := p_data st |}.
Proof.
  intros H. rewrite parse_line_act by discriminate. cbv zeta.
  set (pre := repeat sp n ++ "["%char :: name).
  assert (E : repeat sp n ++ "["%char :: name ++ "]"%char :: repeat sp m = (pre ++ ["]"%char]) ++ repeat sp m).
  { unfold pre. rewrite <- !app_assoc. cbn [app]. reflexivity. }
  assert (Nh : ~ In "#"%char pre). { unfold pre. intros I%in_app_or. destruct I as [I|[I|I]].
    - revert I. apply no_sp. discriminate.
    - discriminate.
    - apply (H _ I). cbn. auto. }
  assert (Nb : ~ In "]"%char pre). { unfold pre. intros I%in_app_or. destruct I as [I|[I|I]].
    - revert I. apply no_sp. discriminate.
    - discriminate.
    - apply (H _ I). cbn. auto. }
  assert (L : find_last_not sp (repeat sp n ++ "["%char :: name ++ "]"%char :: repeat sp m) = Some (List.length pre)).
  { rewrite E, <- app_assoc. cbn [app]. apply find_last_not_at. discriminate. }
  rewrite L, E. rewrite stripped_ok.
  - unfold act. rewrite find_char_here by auto.
    assert (F : find_char "[" (pre ++ ["]"%char]) = Some n).
    { unfold pre. rewrite <- app_assoc. cbn [app]. rewrite find_char_here by (apply no_sp; discriminate). rewrite repeat_length. reflexivity. }
    rewrite F. cbn [same_pos]. rewrite !Nat.eqb_refl. cbn [andb].
    unfold pre. rewrite <- app_assoc. rewrite substr_spaces. cbn [bind app skipn List.length].
    rewrite app_length. cbn [List.length].
    assert (T : S (List.length name + 1) - 2 = List.length name) by lia.
    rewrite T.
    rewrite firstn_app, Nat.sub_diag, firstn_all, firstn_O, app_nil_r. reflexivity.
  - intros I%in_app_or. destruct I as [I|[I|[]]]; [auto|discriminate].
  - destruct pre; discriminate.
  - rewrite last_last. reflexivity.
  - apply spaces_trailer.
Qed.

Definition with_entry (st : pstate) (key value : text) : pstate :=
  if p_parse st then
    {| p_dict := set2 (p_section st) (upper key) value (p_dict st); p_parse := true; p_prev := true;
       p_section := p_section st; p_data := upper key |}
  else st.
(* a data line: [body] is the line without indentation, comment and trailing spaces *)
Lemma line_data st n x r rest key vs : x <> sp -> x <> "#"%char -> x <> "["%char ->
  ~ In "#"%char (x :: r) -> is_space (last (x :: r) sp) = false -> trailer rest ->
  found (find_char "=" (x :: r)) || found (find_char ":" (x :: r)) = true ->
  map trim (split_by is_assign (x :: r)) = key :: vs -> (n = 0 \/ p_prev st = false) ->
  parse_line st (repeat sp n ++ (x :: r) ++ rest) = Ok (with_entry st key (match vs with v :: _ => v | [] => [sp] end)).
Proof.
  intros Hs Hc Hb Nh Hl Ht Hd Hsplit Hp. cbn [app]. rewrite parse_line_act by auto. cbv zeta.
  replace (repeat sp n ++ x :: r ++ rest) with ((repeat sp n ++ x :: r) ++ rest) by (rewrite <- app_assoc; reflexivity).
  rewrite stripped_ok; auto.
  - unfold act. rewrite find_not_at by (auto; discriminate). cbn [andb].
    assert (D : found (find_char "=" (repeat sp n ++ x :: r)) || found (find_char ":" (repeat sp n ++ x :: r)) = true).
    { rewrite !find_char_app by (apply no_sp; discriminate).
      destruct (find_char "=" (x :: r)), (find_char ":" (x :: r)); cbn in *; auto. }
    rewrite D, andb_true_r.
    assert (M : p_prev st && match repeat sp n ++ x :: r with c :: _ => Ascii.eqb c sp | [] => false end = false).
    { destruct Hp as [->| ->]; auto. cbn. destruct (Ascii.eqb_spec x sp); [congruence|]. apply andb_false_r. }
    cbv zeta. rewrite M. unfold with_entry. destruct (p_parse st) eqn:P; cbn [bind].
    + rewrite substr_spaces. cbn [bind]. rewrite Hsplit. reflexivity.
    + rewrite P. reflexivity.
  - intros I%in_app_or. destruct I as [I|I]; [|auto]. revert I. apply no_sp. discriminate.
  - destruct n; discriminate.
  - rewrite last_app by discriminate. auto.
Qed.
Lemma is_assign_cases c : is_assign c = true -> c = "="%char \/ c = ":"%char.
Proof. unfold is_assign. destruct (Ascii.eqb_spec c "="), (Ascii.eqb_spec c ":"); cbn; auto. discriminate. Qed.
Lemma assign_not_space c : is_assign c = true -> is_space c = false /\ c <> "#"%char.
Proof. intros [->| ->]%is_assign_cases; split; reflexivity || discriminate. Qed.
Lemma plain_word key b1 : plain key -> blank b1 -> word is_assign (key ++ b1).
Proof.
  intros ((N & _ & _) & W) B. split. { destruct key; cbn; congruence. }
  apply forallb_forall. intros c [I|I]%in_app_or.
  - destruct (is_assign c) eqn:E; auto. apply is_assign_cases in E. exfalso. apply (W c I). cbn. intuition auto.
  - destruct (is_assign c) eqn:E; auto. apply assign_not_space in E. destruct (B c I). destruct E. congruence.
Qed.
Lemma word_plain b2 v : plain v -> blank b2 -> word is_assign (b2 ++ v).
Proof.
  intros H B. destruct (plain_word v b2 H B) as [N F]. split. { destruct H as ((E & _) & _). destruct b2; cbn; congruence. }
  rewrite forallb_app in *. rewrite andb_comm. auto.
Qed.
Lemma plain_no_hash t : plain t -> ~ In "#"%char t.
Proof. intros (_ & W) I. apply (W _ I). cbn. auto. Qed.
Lemma plain_no_assign t c : plain t -> is_assign c = true -> ~ In c t.
Proof. intros (_ & W) H%is_assign_cases I. apply (W _ I). cbn. intuition auto. Qed.
Lemma line_entry st n key b1 sep b2 value rest : plain key -> hd sp key <> "["%char -> blank b1 -> is_assign sep = true -> blank b2 ->
  plain value -> trailer rest -> (n = 0 \/ p_prev st = false) ->
  parse_line st (repeat sp n ++ key ++ b1 ++ sep :: b2 ++ value ++ rest) = Ok (with_entry st key value).
Proof.
  intros K Kb B1 S B2 V R P. destruct (trimmed_cons key (proj1 K)) as (x & r & E & Hx).
  assert (F : key ++ b1 ++ sep :: b2 ++ value ++ rest = (x :: r ++ b1 ++ sep :: b2 ++ value) ++ rest).
  { rewrite E. cbn [app]. f_equal. rewrite <- !app_assoc. cbn [app]. rewrite <- !app_assoc. reflexivity. }
  assert (G : x :: r ++ b1 ++ sep :: b2 ++ value = (key ++ b1) ++ sep :: b2 ++ value).
  { rewrite E. cbn [app]. rewrite <- app_assoc. reflexivity. }
  rewrite F. rewrite (line_data st n x _ rest key [value]); auto.
  - intros ->. discriminate.
  - intros ->. apply (plain_no_hash _ K). rewrite E. left. auto.
  - rewrite E in Kb. exact Kb.
  - rewrite G. intros [[I|I]%in_app_or|[I|[I|I]%in_app_or]]%in_app_or.
    + apply (plain_no_hash _ K I).
    + apply (hash_not_space _ B1 I).
    + apply assign_not_space in S. destruct S. congruence.
    + apply (hash_not_space _ B2 I).
    + apply (plain_no_hash _ V I).
  - destruct V as ((N & _ & L) & _). rewrite G. rewrite last_app by discriminate.
    change (sep :: b2 ++ value) with ((sep :: b2) ++ value). rewrite last_app; auto.
  - rewrite G. apply orb_true_iff. rewrite !find_char_in. destruct (is_assign_cases _ S) as [->| ->]; [left|right];
      apply in_or_app; right; left; auto.
  - rewrite G, split_cons, split_word by (auto using plain_word, word_plain). cbn [map].
    rewrite trim_after, trim_before by (apply K || apply V || auto). reflexivity.
Qed.
Lemma line_empty st n key b1 sep rest : plain key -> hd sp key <> "["%char -> blank b1 -> is_assign sep = true ->
  trailer rest -> (n = 0 \/ p_prev st = false) ->
  parse_line st (repeat sp n ++ key ++ b1 ++ sep :: rest) = Ok (with_entry st key [sp]).
Proof.
  intros K Kb B1 S R P. destruct (trimmed_cons key (proj1 K)) as (x & r & E & Hx).
  assert (F : key ++ b1 ++ sep :: rest = (x :: r ++ b1 ++ [sep]) ++ rest).
  { rewrite E. cbn [app]. f_equal. rewrite <- !app_assoc. reflexivity. }
  assert (G : x :: r ++ b1 ++ [sep] = (key ++ b1) ++ [sep]).
  { rewrite E. cbn [app]. rewrite <- app_assoc. reflexivity. }
  rewrite F. rewrite (line_data st n x _ rest key []); auto.
  - intros ->. discriminate.
  - intros ->. apply (plain_no_hash _ K). rewrite E. left. auto.
  - rewrite E in Kb. exact Kb.
  - rewrite G. intros [[I|I]%in_app_or|[I|[]]]%in_app_or.
    + apply (plain_no_hash _ K I).
    + apply (hash_not_space _ B1 I).
    + apply assign_not_space in S. destruct S. congruence.
  - rewrite G, last_last. apply assign_not_space, S.
  - rewrite G. apply orb_true_iff. rewrite !find_char_in. destruct (is_assign_cases _ S) as [->| ->]; [left|right];
      apply in_or_app; right; left; auto.
  - rewrite G, split_cons by (auto using plain_word). cbn [map split_by].
    rewrite trim_after by (apply K || auto). reflexivity.
Qed.
Definition with_more (st : pstate) (t : text) : pstate :=
  if p_parse st && p_prev st then
    {| p_dict := append2 (p_section st) (p_data st) (nl :: t) (p_dict st); p_parse := true; p_prev := true;
       p_section := p_section st; p_data := p_data st |}
  else st.
Lemma line_more st n t rest : plain t -> hd sp t <> "["%char -> trailer rest ->
  parse_line st (repeat sp (S n) ++ t ++ rest) = Ok (with_more st t).
Proof.
  intros K Kb R. destruct (trimmed_cons t (proj1 K)) as (x & r & E & Hx). rewrite E in Kb. cbn [hd] in Kb.
  assert (X1 : x <> sp) by (intros ->; discriminate).
  assert (X2 : x <> "#"%char). { intros ->. apply (plain_no_hash _ K). rewrite E. left. auto. }
  rewrite E. cbn [app]. change (sp :: repeat sp n) with (repeat sp (S n)). rewrite parse_line_act by auto. cbv zeta.
  replace (repeat sp (S n) ++ x :: r ++ rest) with ((repeat sp (S n) ++ x :: r) ++ rest) by (rewrite <- app_assoc; reflexivity).
  rewrite <- E. rewrite stripped_ok; auto.
  - unfold act. rewrite E at 1. rewrite find_not_at by (auto; discriminate). cbn [andb].
    assert (D : found (find_char "=" (repeat sp (S n) ++ t)) || found (find_char ":" (repeat sp (S n) ++ t)) = false).
    { rewrite !find_char_none; [reflexivity| |];
        (intros I%in_app_or; destruct I as [I|I]; [revert I; apply no_sp; discriminate|revert I; apply plain_no_assign; [exact K|reflexivity]]). }
    rewrite D, andb_false_r. cbn [bind]. 
    assert (M : match repeat sp (S n) ++ t with c :: _ => Ascii.eqb c sp | [] => false end = true) by reflexivity.
    rewrite M, andb_true_r. unfold with_more. destruct (p_parse st), (p_prev st); cbn [andb]; auto.
    rewrite substr_spaces. reflexivity.
  - intros I%in_app_or. destruct I as [I|I]. { revert I. apply no_sp. discriminate. } apply (plain_no_hash _ K I).
  - discriminate.
  - rewrite last_app by (rewrite E; discriminate). apply K.
Qed.

(** ** All lines *)
Lemma upper_upper s : upper (upper s) = upper s.
Proof.
  unfold upper. rewrite map_map. apply map_ext. intros [[] [] [] [] [] [] [] []]; vm_compute; reflexivity.
Qed.
Lemma same_name_iff a b : same_name a b = true <-> upper a = upper b.
Proof. unfold same_name. destruct (text_eq_dec (upper a) (upper b)); split; congruence. Qed.
Definition value_of (d : dict (dict text)) (s k : text) : option text := lookup k (section_of d s).
Definition some {A} (o : option A) : bool := match o with Some _ => true | None => false end.
Record agrees (st : pstate) (c : content) : Prop := {
  a_parse : p_parse st = some (c_section c);
  a_prev : p_prev st = some (c_key c);
  a_section : forall s, c_section c = Some s -> p_section st = upper s /\ c_known c s = true;
  a_data : forall k, c_key c = Some k -> p_data st = upper k /\ c_section c <> None;
  a_upper : forall s, contains_section (p_dict st) s = true -> upper s = s;
  a_known : forall s, contains_section (p_dict st) (upper s) = c_known c s;
  a_value : forall s k, value_of (p_dict st) (upper s) (upper k) = c_value c s k }.
Lemma value_set2 s0 k0 v d s k : value_of (set2 s0 k0 v d) s k =
  if text_eq_dec s s0 then if text_eq_dec k k0 then Some v else value_of d s k else value_of d s k.
Proof.
  unfold value_of, set2, assign. unfold section_of at 1. cbn [lookup]. destruct (text_eq_dec s s0) as [->|N]; auto.
Qed.
Lemma known_set2 s0 k0 v d s : contains_section (set2 s0 k0 v d) s = if text_eq_dec s s0 then true else contains_section d s.
Proof. unfold contains_section, set2, assign. cbn [lookup]. destruct (text_eq_dec s s0); auto. Qed.
Lemma agrees_start : agrees start no_content.
Proof. split; cbn; auto; try discriminate. Qed.
Lemma write_spec s0 k0 v (d : dict (dict text)) f : (forall s k, value_of d (upper s) (upper k) = f s k) ->
  forall s k, value_of (set2 (upper s0) (upper k0) v d) (upper s) (upper k) = write s0 k0 v f s k.
Proof.
  intros H s k. rewrite value_set2. unfold write. destruct (same_name s0 s) eqn:E1.
  - apply same_name_iff in E1. destruct (text_eq_dec (upper s) (upper s0)); [|congruence]. cbn [andb].
    destruct (same_name k0 k) eqn:E2.
    + apply same_name_iff in E2. destruct (text_eq_dec (upper k) (upper k0)); [auto|congruence].
    + destruct (text_eq_dec (upper k) (upper k0)) as [E|]; auto. symmetry in E. apply same_name_iff in E. congruence.
  - cbn [andb]. destruct (text_eq_dec (upper s) (upper s0)) as [E|]; auto. symmetry in E. apply same_name_iff in E. congruence.
Qed.
Lemma known_write s0 k0 v d f : (forall s, contains_section d (upper s) = f s) -> f s0 = true ->
  forall s, contains_section (set2 (upper s0) k0 v d) (upper s) = f s.
Proof.
  intros H H0 s. rewrite known_set2. destruct (text_eq_dec (upper s) (upper s0)) as [E|]; auto. rewrite <- H, E, H. auto.
Qed.
Lemma upper_write s0 k0 v d : (forall s, contains_section d s = true -> upper s = s) ->
  forall s, contains_section (set2 (upper s0) k0 v d) s = true -> upper s = s.
Proof.
  intros H s. rewrite known_set2. destruct (text_eq_dec s (upper s0)) as [E|]; auto. intros _. subst. apply upper_upper.
Qed.
Lemma step_agrees st c line i sec open : agrees st c -> line_says line i ->
  sec = some (c_section c) -> open = some (c_key c) ->
  laid_out sec open [i] ->
  exists st', parse_line st line = Ok st' /\ agrees st' (add_item c i).
Proof.
  intros A L -> -> O. destruct L as [|n|n t Ht|n name m Hn|n key b1 sep b2 value rest K Kb B1 S B2 V R|n key b1 sep rest K Kb B1 S R|n t rest K Kb R].
  - eexists. split; [reflexivity|]. destruct A. split; cbn; auto. discriminate.
  - exists st. split; [|exact A]. unfold parse_line. cbn [repeat]. change (sp :: repeat sp n) with (repeat sp (Datatypes.S n)).
    cbv zeta. rewrite find_first_not_all, find_char_none by (apply no_sp; discriminate). reflexivity.
  - exists st. split; [|exact A]. unfold parse_line.
    destruct (repeat sp n ++ "#"%char :: t) as [|c0 l0] eqn:E. { destruct n; discriminate. } rewrite <- E. cbv zeta.
    rewrite find_first_not_at by discriminate. rewrite find_char_here by (apply no_sp; discriminate).
    rewrite repeat_length. cbn [same_pos]. rewrite Nat.eqb_refl. reflexivity.
  - eexists. split; [apply line_heading; auto|]. destruct A. split; cbn; auto; try discriminate.
    + intros s [= <-]. split; auto. apply orb_true_iff. left. apply same_name_iff. auto.
    + intros s. unfold contains_section, assign. cbn [lookup]. destruct (text_eq_dec s (upper name)) as [E|]; [|apply a_upper0].
      intros _. subst. apply upper_upper.
    + intros s. unfold contains_section, assign. cbn [lookup]. destruct (same_name name s) eqn:E.
      * apply same_name_iff in E. destruct (text_eq_dec (upper s) (upper name)); [auto|congruence].
      * destruct (text_eq_dec (upper s) (upper name)) as [E'|]; [symmetry in E'; apply same_name_iff in E'; congruence|]. apply a_known0.
    + intros s k. unfold value_of, section_of, assign. cbn [lookup]. destruct (same_name name s) eqn:E.
      * apply same_name_iff in E. destruct (text_eq_dec (upper s) (upper name)); [auto|congruence].
      * destruct (text_eq_dec (upper s) (upper name)) as [E'|]; [symmetry in E'; apply same_name_iff in E'; congruence|]. apply a_value0.
  - destruct O as [O _]. eexists. split.
    { apply line_entry; auto. destruct O as [O|O]; [left; auto|right]. rewrite (a_prev _ _ A). auto. }
    unfold with_entry. cbn [add_item]. rewrite (a_parse _ _ A). destruct (c_section c) as [s|] eqn:Es; cbn [some]; auto.
    destruct A. destruct (a_section0 s Es) as [P1 P2].
    split; cbn; try discriminate; auto.
    + intros s' [= <-]. auto.
    + intros k [= <-]. split; auto; congruence.
    + rewrite P1. apply upper_write; auto.
    + rewrite P1. apply known_write; auto.
    + rewrite P1. apply write_spec; auto.
  - destruct O as [O _]. eexists. split.
    { apply line_empty; auto. destruct O as [O|O]; [left; auto|right]. rewrite (a_prev _ _ A). auto. }
    unfold with_entry. cbn [add_item]. rewrite (a_parse _ _ A). destruct (c_section c) as [s|] eqn:Es; cbn [some]; auto.
    destruct A. destruct (a_section0 s Es) as [P1 P2].
    split; cbn; try discriminate; auto.
    + intros s' [= <-]. auto.
    + intros k [= <-]. split; auto; congruence.
    + rewrite P1. apply upper_write; auto.
    + rewrite P1. apply known_write; auto.
    + rewrite P1. apply write_spec; auto.
  - eexists. split; [apply line_more; auto|]. unfold with_more. cbn [add_item]. rewrite (a_parse _ _ A), (a_prev _ _ A).
    destruct (c_section c) as [s|] eqn:Es; cbn [some andb]; auto. destruct (c_key c) as [k|] eqn:Ek; cbn [some]; auto.
    destruct A. destruct (a_section0 s Es) as [P1 P2]. destruct (a_data0 k Ek) as [P3 _]. unfold append2. fold (value_of (p_dict st) (p_section st) (p_data st)).
    split; cbn; auto.
    + intros s' [= <-]. auto.
    + intros k' [= <-]. split; auto; congruence.
    + rewrite P1, P3. apply upper_write; auto.
    + rewrite P1, P3. apply known_write; auto.
    + rewrite P1, P3, a_value0. apply write_spec; auto.
Qed.
Lemma laid_out_cons sec open i r : laid_out sec open (i :: r) -> laid_out sec open [i].
Proof. destruct i; cbn; tauto. Qed.
Lemma laid_out_next c i r : (c_key c <> None -> c_section c <> None) ->
  laid_out (some (c_section c)) (some (c_key c)) (i :: r) ->
  laid_out (some (c_section (add_item c i))) (some (c_key (add_item c i))) r.
Proof.
  intros H. destruct i; cbn; auto.
  - intros [_ L]. destruct (c_section c) as [s|] eqn:Es; cbn; auto. rewrite Es. cbn.
    destruct (c_key c); auto. destruct H; congruence.
  - destruct (c_section c) as [s|] eqn:Es; cbn; rewrite ?Es; auto. destruct (c_key c) as [k|] eqn:Ek; cbn; rewrite ?Es, ?Ek; auto.
Qed.
Lemma parse_agrees ls is : Forall2 line_says ls is -> forall st c, agrees st c ->
  laid_out (some (c_section c)) (some (c_key c)) is ->
  exists st', foldM ls parse_line st = Ok st' /\ agrees st' (fold_left add_item is c).
Proof.
  induction 1 as [|l i ls is L F IH]; intros st c A O; cbn [foldM fold_left].
  - exists st. auto.
  - destruct (step_agrees st c l i _ _ A L eq_refl eq_refl (laid_out_cons _ _ _ _ O)) as (st1 & E1 & A1).
    rewrite E1. cbn [bind]. apply IH; auto. apply laid_out_next in O; auto.
    intros Hk. destruct (c_key c) as [k|] eqn:Ek; [|congruence]. apply (a_data _ _ A k Ek).
Qed.

(** The statements of Props_Ini.v. *)
From Coq Require Import Ascii String QArith Qcanon ZArith NArith Bool Lia.
From Verif Require Import Base Ham Asci Text TextProofs Ini IniSpec IniProofs.
Local Open Scope nat_scope.

Lemma split_query_ok s k : query_name s -> query_name k -> split_query (query s k) = Ok (upper s, upper k).
Proof.
  intros (Ts & Ws) (Tk & Wk). unfold split_query, query.
  assert (W : forall t, trimmed t -> without ["."%char] t -> word is_dot t).
  { intros t (N & _) W. split; auto. apply forallb_forall. intros c I. unfold is_dot. destruct (Ascii.eqb_spec c "."); auto.
    exfalso. apply (W c I). left. auto. }
  rewrite split_cons, split_word by (auto; reflexivity). cbn [map]. rewrite !trim_id by auto. reflexivity.
Qed.
Lemma get_string_value d s k : query_name s -> query_name k ->
  get_string d (query s k) = match value_of d (upper s) (upper k) with Some v => Ok v | None => Err Throw end.
Proof.
  intros Hs Hk. unfold get_string. rewrite split_query_ok by auto. cbn [bind fst snd].
  unfold value_of, section_of. destruct (lookup (upper s) d); reflexivity.
Qed.
Lemma contains_value d s k : query_name s -> query_name k ->
  contains_data d (query s k) = Ok (some (value_of d (upper s) (upper k))).
Proof.
  intros Hs Hk. unfold contains_data. rewrite split_query_ok by auto. cbn [bind fst snd].
  unfold value_of, section_of. destruct (lookup (upper s) d) as [m|]; reflexivity.
Qed.
Lemma ini_reads f is : Forall2 line_says (lines f) is -> laid_out false false is ->
  exists d, ini_parse (Some f) = Ok d /\
    (forall s k, query_name s -> query_name k ->
       get_string d (query s k) = match c_value (contents is) s k with Some v => Ok v | None => Err Throw end /\
       contains_data d (query s k) = Ok (match c_value (contents is) s k with Some _ => true | None => false end)) /\
    (forall s, contains_section d s = true <-> c_known (contents is) s = true /\ upper s = s).
Proof.
  intros F L. destruct (parse_agrees _ _ F start no_content agrees_start L) as (st & E & A).
  exists (p_dict st). unfold ini_parse. rewrite E. cbn [bind]. split; auto. split.
  - intros s k Hs Hk. rewrite get_string_value, contains_value, (a_value _ _ A) by auto. split; auto.
  - intros s. rewrite <- (a_known _ _ A). split.
    + intros H. pose proof (a_upper _ _ A _ H) as U. rewrite U. auto.
    + intros [H U]. rewrite U in H. auto.
Qed.
Lemma ini_missing : ini_parse None = Err Throw.
Proof. reflexivity. Qed.

Lemma drop_while_suffix p (s : text) : exists a, s = a ++ drop_while p s.
Proof.
  induction s as [|c s [a E]]; [exists []; auto|]. cbn. destruct (p c); [|exists []; auto]. exists (c :: a). cbn. congruence.
Qed.
Lemma trim_right_prefix s : exists b, s = trim_right s ++ b.
Proof.
  destruct (drop_while_suffix is_space (rev s)) as [a E]. exists (rev a). unfold trim_right.
  rewrite <- rev_app_distr, <- E, rev_involutive. auto.
Qed.
Lemma stripped_prefix s : exists b, s = stripped s ++ b.
Proof.
  unfold stripped. destruct (find_char "#" s) as [k|].
  - destruct (trim_right_prefix (firstn k s)) as [b E]. exists (b ++ skipn k s). rewrite app_assoc, <- E. symmetry. apply firstn_skipn.
  - apply trim_right_prefix.
Qed.
Lemma split_by_nonempty p c s : p c = false -> split_by p (c :: s) <> [].
Proof.
  intros H. cbn [split_by]. rewrite H. destruct s as [|c' s]; [discriminate|]. destruct (p c'); [discriminate|].
  destruct (split_by p (c' :: s)); discriminate.
Qed.
Lemma safe_line_ok st l : safe_line l -> exists st', parse_line st l = Ok st'.
Proof.
  destruct l as [|c l]; intros H. { eexists. reflexivity. } destruct H as [H1 H2].
  destruct (Ascii.eqb_spec c "#") as [->|Hc]. { exists st. reflexivity. }
  pose proof (parse_line_act st 0 c l H1 Hc) as E. cbn [repeat app] in E. cbv zeta in E. rewrite E. clear E.
  destruct (stripped_prefix (c :: l)) as [b E]. unfold act. cbv zeta.
  set (L := stripped (c :: l)) in *. assert (S0 : forall t, substr 0 t = Ok t) by reflexivity. rewrite S0.
  destruct (same_pos (find_char "[" L) (Some 0) && same_pos (find_char "]" L) (find_last_not sp (c :: l))). { eexists. reflexivity. }
  destruct L as [|c' L'] eqn:EL.
  - cbn [find_char found orb]. rewrite andb_false_r. cbn [bind]. rewrite !andb_false_r. eexists. reflexivity.
  - cbn [app] in E. injection E as <- E. destruct (Ascii.eqb_spec c sp); [congruence|]. rewrite andb_false_r.
    destruct (p_parse st && _); cbn [bind].
    + destruct (split_by is_assign (c :: L')) eqn:Es. { exfalso. revert Es. apply split_by_nonempty. auto. }
      cbn [map bind]. rewrite andb_false_r. eexists. reflexivity.
    + rewrite andb_false_r. eexists. reflexivity.
Qed.
Lemma ini_total f : (forall l, In l (lines f) -> safe_line l) -> exists d, ini_parse (Some f) = Ok d.
Proof.
  intros H. unfold ini_parse.
  assert (G : forall ls st, (forall l, In l ls -> safe_line l) -> exists st', foldM ls parse_line st = Ok st').
  { induction ls as [|l ls IH]; intros st Hl; cbn [foldM]. { eauto. }
    destruct (safe_line_ok st l) as [st1 ->]. { apply Hl. left. auto. } cbn [bind]. apply IH. intros x Hx. apply Hl. right. auto. }
  destruct (G (lines f) start H) as [st ->]. cbn [bind]. eauto.
Qed.

(** ** Numbers and switches *)
Lemma stoul_show n : (n < 2 ^ 64)%N -> stoul (show_N n) = Ok (Z.of_N n).
Proof.
  intros H. destruct (show_N_ok n) as (V & D & E). unfold stoul.
  assert (S : drop_while is_space (show_N n) = show_N n).
  { apply drop_while_none. destruct (show_N n) as [|c r]; auto. apply digit_not_space. cbn in D. apply andb_prop in D. apply D. }
  rewrite S. assert (T : take_sign (show_N n) = (false, show_N n)).
  { unfold take_sign. destruct (show_N n) as [|c r]; auto. cbn in D. apply andb_prop in D. destruct D as [D _].
    rewrite !digit_neq by (auto; reflexivity). reflexivity. }
  rewrite T. destruct (take_while_all is_digit (show_N n) [] D I) as [W _]. rewrite app_nil_r in W. rewrite W, V.
  destruct (show_N n); [congruence|].
  destruct (Z.ltb_spec (Z.of_N n) (2 ^ 64)); auto. exfalso. change (2 ^ 64)%Z with (Z.of_N (2 ^ 64)) in *. lia.
Qed.
Lemma get_numbers d q n : get_string d q = Ok (show_N n) ->
  ((n < 2 ^ 64)%N -> get_size d q = Ok (Z.of_N n)) /\
  ((n < 2 ^ 63)%N -> get_int64 d q = Ok (Z.of_N n)) /\
  ((n < 2 ^ 31)%N -> get_int d q = Ok (Z.of_N n)).
Proof.
  intros E. unfold get_size, get_int64, get_int. rewrite E. cbn [bind]. split; [apply stoul_show|]. split; intros H; apply sto_show'.
  - change (Z.of_N (64 - 1)) with 63%Z. change (2 ^ 63)%Z with (Z.of_N (2 ^ 63)). lia.
  - change (Z.of_N (32 - 1)) with 31%Z. change (2 ^ 31)%Z with (Z.of_N (2 ^ 31)). lia.
Qed.
Lemma get_bool_iff d q v : get_string d q = Ok v ->
  exists b, get_bool d q = Ok b /\ (b = true <-> v = lit "TRUE" \/ v = lit "ON").
Proof.
  intros E. unfold get_bool. rewrite E. cbn [bind]. eexists. split; [reflexivity|]. rewrite orb_true_iff.
  destruct (text_eq_dec v (lit "TRUE")), (text_eq_dec v (lit "ON")); intuition congruence.
Qed.

(** ** Witnesses *)
Local Open Scope string_scope.
Local Open Scope list_scope.
Lemma ex_file : exists is,
  Forall2 line_says (lines (ini_file ["# water"; "[ci]"; "norb = 7 # orbitals"; "nalpha: 3"; ""; "[Asci]"; "ntdets_max = 100"; "comment = first";
    "   second"; "Ntdets_Max = 200"; ""])) is /\
  laid_out false false is /\
  c_value (contents is) (lit "CI") (lit "NORB") = Some (lit "7") /\
  c_value (contents is) (lit "CI") (lit "NALPHA") = Some (lit "3") /\
  c_value (contents is) (lit "asci") (lit "ntdets_max") = Some (lit "200") /\
  c_value (contents is) (lit "ASCI") (lit "COMMENT") = Some (lit "first" ++ nl :: lit "second") /\
  c_value (contents is) (lit "CI") (lit "NBETA") = None.
Proof.
  exists [Remark; Heading (lit "ci"); Entry 0 (lit "norb") (lit "7"); Entry 0 (lit "nalpha") (lit "3"); Nothing; Heading (lit "Asci");
    Entry 0 (lit "ntdets_max") (lit "100"); Entry 0 (lit "comment") (lit "first"); More (lit "second"); Entry 0 (lit "Ntdets_Max") (lit "200"); Nothing].
  split; [|vm_compute; repeat split; auto].
  assert (P : forall t, forallb (fun c => negb (Ascii.eqb c "=") && negb (Ascii.eqb c ":") && negb (Ascii.eqb c "#") && negb (Ascii.eqb c nl)) t = true ->
    t <> [] -> is_space (hd sp t) = false -> is_space (last t sp) = false -> plain t).
  { intros t H N E1 E2. split; [repeat split; auto|]. intros c I X. rewrite forallb_forall in H. specialize (H c I).
    destruct X as [<-|[<-|[<-|[<-|[]]]]]; discriminate. }
  assert (B : forall t, forallb (fun c => is_space c && negb (Ascii.eqb c nl)) t = true -> blank t).
  { intros t H c I. rewrite forallb_forall in H. specialize (H c I). apply andb_prop in H. destruct H as [H1 H2]. split; auto. intros ->. discriminate. }
  assert (T0 : trailer []) by (exists []; split; auto; intros c []).
  change (lines _) with [lit "# water"; lit "[ci]"; lit "norb = 7 # orbitals"; lit "nalpha: 3"; lit ""; lit "[Asci]"; lit "ntdets_max = 100"; lit "comment = first";
    lit "   second"; lit "Ntdets_Max = 200"; lit ""].
  constructor. { apply (says_remark 0 (lit " water")). intros c I [<-|[]]. vm_compute in I. intuition discriminate. }
  constructor. { apply (says_heading 0 (lit "ci") 0). intros c I X. vm_compute in I, X. intuition (subst; discriminate). }
  constructor. { apply (says_entry 0 (lit "norb") (lit " ") "=" (lit " ") (lit "7") (lit " # orbitals")); try (apply P || apply B); try reflexivity; try discriminate.
    exists [sp]. split; [apply B; reflexivity|]. right. exists (lit " orbitals"). split; [|reflexivity]. intros c I [<-|[]]. vm_compute in I. intuition discriminate. }
  constructor. { apply (says_entry 0 (lit "nalpha") [] ":" (lit " ") (lit "3") []); try (apply P || apply B); try reflexivity; try discriminate; auto. }
  constructor. { apply says_nothing. }
  constructor. { apply (says_heading 0 (lit "Asci") 0). intros c I X. vm_compute in I, X. intuition (subst; discriminate). }
  constructor. { apply (says_entry 0 (lit "ntdets_max") (lit " ") "=" (lit " ") (lit "100") []); try (apply P || apply B); try reflexivity; try discriminate; auto. }
  constructor. { apply (says_entry 0 (lit "comment") (lit " ") "=" (lit " ") (lit "first") []); try (apply P || apply B); try reflexivity; try discriminate; auto. }
  constructor. { apply (says_more 2 (lit "second") []); try apply P; try reflexivity; try discriminate; auto. }
  constructor. { apply (says_entry 0 (lit "Ntdets_Max") (lit " ") "=" (lit " ") (lit "200") []); try (apply P || apply B); try reflexivity; try discriminate; auto. }
  constructor. { apply says_nothing. }
  constructor.
Qed.

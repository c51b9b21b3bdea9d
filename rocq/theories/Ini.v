(** Model of the input file reader of the standalone driver, tests/ini_input.cxx and
    tests/ini_input.hpp. No proofs in this file. *)
From Coq Require Import Ascii String QArith Qcanon ZArith NArith Bool.
From Verif Require Import Base Ham Asci Text.
Local Open Scope nat_scope.

(* std::string::find, find_first_not_of, find_last_not_of for one character; None: npos *)
Fixpoint find_char (c : ascii) (s : text) : option nat :=
  match s with [] => None | d :: r => if Ascii.eqb d c then Some 0 else option_map S (find_char c r) end.
Fixpoint find_first_not (c : ascii) (s : text) : option nat :=
  match s with [] => None | d :: r => if Ascii.eqb d c then option_map S (find_first_not c r) else Some 0 end.
Definition find_last_not (c : ascii) (s : text) : option nat :=
  option_map (fun k => List.length s - 1 - k) (find_first_not c (rev s)).
(* equality of two positions *)
Definition same_pos (a b : option nat) : bool :=
  match a, b with Some x, Some y => x =? y | None, None => true | _, _ => false end.
Definition found (a : option nat) : bool := match a with Some _ => true | None => false end.

(* ini_input.cxx:18-23, 30-36, 43-45; isspace of negative char values is not modelled *)
Definition trim_left (s : text) : text := drop_while is_space s.
Definition trim_right (s : text) : text := rev (drop_while is_space (rev s)).
Definition trim (s : text) : text := trim_left (trim_right s).
(* std::toupper in the "C" locale (ini_input.cxx:150-152, 176-178, 229-231) *)
Definition to_upper (c : ascii) : ascii :=
  if ((97 <=? code c) && (code c <=? 122))%N then ascii_of_N (code c - 32) else c.
Definition upper (s : text) : text := map to_upper s.
(* ini_input.cxx:55-72: the tokens are the maximal runs of non-delimiters *)
Definition is_assign (c : ascii) : bool := Ascii.eqb c "=" || Ascii.eqb c ":".
Definition is_dot (c : ascii) : bool := Ascii.eqb c ".".
(* std::string::substr(pos): throws beyond the end *)
Definition substr (pos : nat) (s : text) : res text := if List.length s <? pos then Err Throw else Ok (skipn pos s).

(* std::unordered_map<std::string, T>: find, operator[]= *)
Definition dict (A : Type) := list (text * A).
Definition text_eq_dec (a b : text) : {a = b} + {a <> b} := list_eq_dec Ascii.ascii_dec a b.
Fixpoint lookup {A} (k : text) (d : dict A) : option A :=
  match d with [] => None | (k', v) :: r => if text_eq_dec k k' then Some v else lookup k r end.
Definition assign {A} (k : text) (v : A) (d : dict A) : dict A := (k, v) :: d.
Definition section_of (d : dict (dict text)) (s : text) : dict text := match lookup s d with Some m => m | None => [] end.
(* dict_[s][k] = v *)
Definition set2 (s k v : text) (d : dict (dict text)) : dict (dict text) := assign s (assign k v (section_of d s)) d.
(* dict_[s][k] += v *)
Definition append2 (s k v : text) (d : dict (dict text)) : dict (dict text) :=
  set2 s k (match lookup k (section_of d s) with Some w => w | None => [] end ++ v) d.

(* the variables of INIFile::parse, ini_input.cxx:92-96 *)
Record pstate := { p_dict : dict (dict text); p_parse : bool; p_prev : bool; p_section : text; p_data : text }.
Definition start : pstate := {| p_dict := []; p_parse := false; p_prev := false; p_section := []; p_data := [] |}.

(* ini_input.cxx:99-195: one turn of the loop, [line] as read *)
Definition parse_line (st : pstate) (line : text) : res pstate :=
  match line with
  | [] => Ok {| p_dict := p_dict st; p_parse := p_parse st; p_prev := false; p_section := p_section st; p_data := p_data st |}
  | _ =>
    let firstNonSpace := find_first_not sp line in
    let lastNonSpace := find_last_not sp line in
    let comPos := find_char "#" line in
    if same_pos comPos firstNonSpace then Ok st
    else
      let first := match firstNonSpace with Some k => k | None => 0 end in (* None does not get here *)
      let line := match comPos with Some k => firstn k line | None => line end in
      let line := trim_right line in
      let lBrckPos := find_char "[" line in
      let rBrckPos := find_char "]" line in
      let sectionLine := same_pos lBrckPos firstNonSpace && same_pos rBrckPos lastNonSpace in
      let dataLine := found (find_char "=" line) || found (find_char ":" line) in
      let multiLine := p_prev st && match line with c :: _ => Ascii.eqb c sp | [] => false end in
      if sectionLine then
        do line <- substr first line;
        let header := upper (firstn (List.length line - 2) (skipn 1 line)) in
        Ok {| p_dict := assign header [] (p_dict st); p_parse := true; p_prev := false; p_section := header; p_data := p_data st |}
      else
        do x <- (if p_parse st && dataLine then
                   do line <- substr first line;
                   match map trim (split_by is_assign line) with
                   | [] => Err UB (* tokens[0] of an empty vector *)
                   | t0 :: rest =>
                     let header := upper t0 in
                     let value := match rest with t1 :: _ => t1 | [] => [sp] end in
                     Ok (line, {| p_dict := set2 (p_section st) header value (p_dict st); p_parse := p_parse st; p_prev := true;
                                  p_section := p_section st; p_data := header |})
                   end
                 else Ok (line, st));
        let '(line, st) := x in
        if p_parse st && multiLine then
          do line <- substr first line;
          Ok {| p_dict := append2 (p_section st) (p_data st) (nl :: line) (p_dict st); p_parse := p_parse st; p_prev := p_prev st;
                p_section := p_section st; p_data := p_data st |}
        else Ok st
  end.
(* ini_input.cxx:85-208; [None]: the file cannot be opened (:87-90). The eof() loop also passes the empty
   remainder after the last newline, which changes nothing *)
Definition ini_parse (file : option text) : res (dict (dict text)) :=
  match file with
  | None => Err Throw
  | Some f => do st <- foldM (lines f) parse_line start; Ok (p_dict st)
  end.

(* ini_input.cxx:221-237 *)
Definition split_query (q : text) : res (text * text) :=
  match map (fun t => upper (trim t)) (split_by is_dot q) with
  | t0 :: t1 :: _ => Ok (t0, t1)
  | _ => Err UB (* tokens[0], tokens[1] *)
  end.
(* ini_input.hpp:92-94, 103-107 *)
Definition contains_section (d : dict (dict text)) (s : text) : bool := match lookup s d with Some _ => true | None => false end.
Definition contains_data (d : dict (dict text)) (q : text) : res bool :=
  do p <- split_query q;
  Ok (match lookup (fst p) d with Some m => match lookup (snd p) m with Some _ => true | None => false end | None => false end).
(* ini_input.cxx:303-317 *)
Definition get_string (d : dict (dict text)) (q : text) : res text :=
  do p <- split_query q;
  match lookup (fst p) d with
  | Some m => match lookup (snd p) m with Some v => Ok v | None => Err Throw end
  | None => Err Throw
  end.
(* ini_input.cxx:327-330 *)
Definition get_int (d : dict (dict text)) (q : text) : res Z := do s <- get_string d q; stoi s.
(* ini_input.cxx:340-345 *)
Definition get_bool (d : dict (dict text)) (q : text) : res bool :=
  do s <- get_string d q;
  Ok ((if text_eq_dec s (lit "TRUE") then true else false) || (if text_eq_dec s (lit "ON") then true else false)).
(* std::stoul (64 bits): a minus sign negates modulo 2^64 *)
Definition stoul (s : text) : res Z :=
  let '(neg, s) := take_sign (drop_while is_space s) in
  let ds := take_while is_digit s in
  match ds with
  | [] => Err Throw
  | _ =>
    let v := Z.of_N (digits_val ds) in
    if (v <? 2 ^ 64)%Z then Ok (if neg then (- v) mod 2 ^ 64 else v)%Z else Err Throw
  end.
(* ini_input.cxx:355-358 *)
Definition get_size (d : dict (dict text)) (q : text) : res Z := do s <- get_string d q; stoul s.
(* ini_input.cxx:368-371; std::stol is 64 bits wide here *)
Definition get_int64 (d : dict (dict text)) (q : text) : res Z := do s <- get_string d q; stoll s.
(* ini_input.cxx:381-384 *)
Definition get_double (rnd : Q -> res Qc) (d : dict (dict text)) (q : text) : res Qc := do s <- get_string d q; stod rnd s.

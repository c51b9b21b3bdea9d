(** C64: the input file of the standalone driver. *)
From Coq Require Import Ascii String QArith Qcanon ZArith NArith Bool.
From Verif Require Import Base Ham Asci Text Ini IniSpec IniGlue.
Local Open Scope nat_scope.
Local Open Scope string_scope.
Local Open Scope list_scope.

(** Every file whose lines are headings, entries, continued values, comments and
    blank lines, laid out as documented, is read without failure; getData
    returns for every section and key exactly the value the file says, whatever
    the case of the names, and throws for the others; containsData and
    containsSection tell which are there. *)
Theorem C64_file_is_read : forall f is, Forall2 line_says (lines f) is -> laid_out false false is ->
  exists d, ini_parse (Some f) = Ok d /\
    (forall s k, query_name s -> query_name k ->
       get_string d (query s k) = match c_value (contents is) s k with Some v => Ok v | None => Err Throw end /\
       contains_data d (query s k) = Ok (match c_value (contents is) s k with Some _ => true | None => false end)) /\
    (forall s, contains_section d s = true <-> c_known (contents is) s = true /\ upper s = s).
Proof. exact ini_reads. Qed.
Example C64_file_is_read_ex : exists is,
  Forall2 line_says (lines (ini_file ["# water"; "[ci]"; "norb = 7 # orbitals"; "nalpha: 3"; ""; "[Asci]"; "ntdets_max = 100"; "comment = first";
    "   second"; "Ntdets_Max = 200"; ""])) is /\
  laid_out false false is /\
  c_value (contents is) (lit "CI") (lit "NORB") = Some (lit "7") /\
  c_value (contents is) (lit "CI") (lit "NALPHA") = Some (lit "3") /\
  c_value (contents is) (lit "asci") (lit "ntdets_max") = Some (lit "200") /\
  c_value (contents is) (lit "ASCI") (lit "COMMENT") = Some (lit "first" ++ nl :: lit "second") /\
  c_value (contents is) (lit "CI") (lit "NBETA") = None.
Proof. exact ex_file. Qed.
Print Assumptions C64_file_is_read.

(** A file that cannot be opened is reported. *)
Theorem C64_missing_file_throws : ini_parse None = Err Throw.
Proof. exact ini_missing. Qed.
Print Assumptions C64_missing_file_throws.

(** Whatever the file contains, reading it succeeds if no line starts with a
    space, '=' or ':'. *)
Theorem C64_unindented_files_never_fail : forall f, (forall l, In l (lines f) -> safe_line l) -> exists d, ini_parse (Some f) = Ok d.
Proof. exact ini_total. Qed.
Example C64_unindented_files_never_fail_ex : forall l, In l (lines (ini_file ["[[x"; "a==b:c#d"; "]"; "#"; ""])) -> safe_line l.
Proof.
  intros l H. vm_compute in H. destruct H as [<-|[<-|[<-|[<-|[<-|[]]]]]]; vm_compute; split || exact I; discriminate || reflexivity.
Qed.
Print Assumptions C64_unindented_files_never_fail.

(** Numbers written in decimal are read back as size_t, int64_t and int as long as they fit. *)
Theorem C64_numbers_are_read : forall d q n, get_string d q = Ok (show_N n) ->
  ((n < 2 ^ 64)%N -> get_size d q = Ok (Z.of_N n)) /\
  ((n < 2 ^ 63)%N -> get_int64 d q = Ok (Z.of_N n)) /\
  ((n < 2 ^ 31)%N -> get_int d q = Ok (Z.of_N n)).
Proof. exact get_numbers. Qed.
Print Assumptions C64_numbers_are_read.

(** A switch is on exactly when its value is TRUE or ON. *)
Theorem C64_switches_are_read : forall d q v, get_string d q = Ok v ->
  exists b, get_bool d q = Ok b /\ (b = true <-> v = lit "TRUE" \/ v = lit "ON").
Proof. exact get_bool_iff. Qed.
Print Assumptions C64_switches_are_read.
Example C64_numbers_are_read_ex : exists d, ini_parse (Some (ini_file ["[CI]"; "NTDETS = 4711"; "QUIET = ON"])) = Ok d /\
  get_string d (lit "CI.NTDETS") = Ok (show_N 4711) /\ get_string d (lit "ci.quiet") = Ok (lit "ON").
Proof. eexists. vm_compute. repeat split. Qed.

(** Refuted: a comment (or a tab, or a carriage return) behind a heading does not matter. The whole section is lost. *)
Theorem C64_comment_after_heading_refuted :
  exists d, ini_parse (Some (ini_file ["[CI] # options"; "NORB = 7"])) = Ok d /\ get_string d (lit "CI.NORB") = Err Throw /\
  exists d', ini_parse (Some (lit "[CI]" ++ ascii_of_N 13 :: nl :: lit "NORB = 7")) = Ok d' /\ get_string d' (lit "CI.NORB") = Err Throw.
Proof. eexists. split; [vm_compute; reflexivity|]. split; [vm_compute; reflexivity|]. eexists. split; vm_compute; reflexivity. Qed.
Print Assumptions C64_comment_after_heading_refuted.

(** Refuted: entries may be indented below their heading. The second of two indented entries gets a tail of
    its own line, and with a deeper indentation the reader fails. *)
Theorem C64_indented_entries_refuted :
  (exists d, ini_parse (Some (ini_file ["[CI]"; "  A = ON"; "  BB = ON"])) = Ok d /\
     get_string d (lit "CI.BB") = Ok (lit "ON" ++ nl :: lit " = ON") /\ get_bool d (lit "CI.BB") = Ok false) /\
  ini_parse (Some (ini_file ["[CI]"; "        A = 1"; "        B = 2"])) = Err Throw.
Proof. split; [eexists; split; [vm_compute; reflexivity|split; vm_compute; reflexivity]|vm_compute; reflexivity]. Qed.
Print Assumptions C64_indented_entries_refuted.

(** Refuted: any file is read or reported as wrong. A lone '=' inside a section reads beyond an empty vector, and so
    does a query without a period. *)
Theorem C64_bad_input_is_reported_refuted :
  ini_parse (Some (ini_file ["[CI]"; "="])) = Err UB /\ (forall d, get_string d (lit "NORB") = Err UB).
Proof. split; [vm_compute|intros d]; reflexivity. Qed.
Print Assumptions C64_bad_input_is_reported_refuted.

(** Refuted: values are read as a whole. They are cut at the next '=' or ':', and numbers at the first character that
    is not a digit; switches know upper case only; a negative size_t wraps around. *)
Theorem C64_values_are_checked_refuted :
  exists d, ini_parse (Some (ini_file ["[CI]"; "FCIDUMP = run:1/h2o.fci"; "NTDETS_MAX = 1e6"; "QUIET = true"; "NORB = -1"])) = Ok d /\
    get_string d (lit "CI.FCIDUMP") = Ok (lit "run") /\ get_size d (lit "CI.NTDETS_MAX") = Ok 1%Z /\
    get_bool d (lit "CI.QUIET") = Ok false /\ get_size d (lit "CI.NORB") = Ok (2 ^ 64 - 1)%Z.
Proof. eexists. split; [vm_compute; reflexivity|]. vm_compute. repeat split. Qed.
Print Assumptions C64_values_are_checked_refuted.

(** Refuted: a section may be continued under a second heading, its name may be padded with spaces, and
    containsSection disregards case as getData does. *)
Theorem C64_section_names_refuted :
  (exists d, ini_parse (Some (ini_file ["[CI]"; "NORB = 7"; "[ASCI]"; "[ci]"; "NALPHA = 3"])) = Ok d /\
     get_string d (lit "CI.NORB") = Err Throw) /\
  (exists d, ini_parse (Some (ini_file ["[ CI ]"; "NORB = 7"])) = Ok d /\
     get_string d (lit "CI.NORB") = Err Throw /\ get_string d (lit " CI .NORB") = Err Throw) /\
  (exists d, ini_parse (Some (ini_file ["[ci]"; "norb = 7"])) = Ok d /\
     get_string d (lit "ci.norb") = Ok (lit "7") /\ contains_section d (lit "ci") = false).
Proof.
  split; [eexists; split; vm_compute; reflexivity|].
  split; eexists; (split; [vm_compute; reflexivity|split; vm_compute; reflexivity]).
Qed.
Print Assumptions C64_section_names_refuted.

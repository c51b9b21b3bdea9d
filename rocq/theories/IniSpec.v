(** What an input file of the standalone driver says, line by line, and what
    its reader has to return. Names are compared without regard to case
    ([upper]: toupper of every character). *)
From Coq Require Import Ascii String NArith Bool.
From Verif Require Import Base Text Ini.
Local Open Scope nat_scope.

(** ** Lines *)
Definition without (cs : list ascii) (t : text) : Prop := forall c, In c t -> ~ In c cs.
(** not empty, and neither the first nor the last character is white space *)
Definition trimmed (t : text) : Prop := t <> [] /\ is_space (hd sp t) = false /\ is_space (last t sp) = false.
Definition plain (t : text) : Prop := trimmed t /\ without ["="; ":"; "#"; nl]%char t.
(** white space inside a line *)
Definition blank (t : text) : Prop := forall c, In c t -> is_space c = true /\ c <> nl.
(** what may follow on a line: white space, then perhaps a comment *)
Definition trailer (t : text) : Prop :=
  exists b, blank b /\ (t = b \/ exists c, without [nl] c /\ t = b ++ "#"%char :: c).

Inductive item :=
| Nothing (* an empty line *)
| Remark (* spaces only, or a comment *)
| Heading (name : text)
| Entry (indent : nat) (key value : text)
| More (t : text). (* an indented line without '=' and ':' *)

Inductive line_says : text -> item -> Prop :=
| says_nothing : line_says [] Nothing
| says_spaces n : line_says (repeat sp (S n)) Remark
| says_remark n c : without [nl] c -> line_says (repeat sp n ++ "#"%char :: c) Remark
| says_heading n name m : without ["]"; "#"; nl]%char name ->
    line_says (repeat sp n ++ "["%char :: name ++ "]"%char :: repeat sp m) (Heading name)
| says_entry n key b1 sep b2 value rest : plain key -> hd sp key <> "["%char -> blank b1 -> is_assign sep = true -> blank b2 ->
    plain value -> trailer rest ->
    line_says (repeat sp n ++ key ++ b1 ++ sep :: b2 ++ value ++ rest) (Entry n key value)
| says_empty n key b1 sep rest : plain key -> hd sp key <> "["%char -> blank b1 -> is_assign sep = true -> trailer rest ->
    line_says (repeat sp n ++ key ++ b1 ++ sep :: rest) (Entry n key [sp])
| says_more n t rest : plain t -> hd sp t <> "["%char -> trailer rest ->
    line_says (repeat sp (S n) ++ t ++ rest) (More t).

(** no entry is indented directly below an entry of the same section (blank
    lines end an entry, comments do not) *)
Fixpoint laid_out (in_section in_entry : bool) (is : list item) : Prop :=
  match is with
  | [] => True
  | Nothing :: r => laid_out in_section false r
  | Remark :: r => laid_out in_section in_entry r
  | Heading _ :: r => laid_out true false r
  | Entry n _ _ :: r => (n = 0 \/ in_entry = false) /\ laid_out in_section in_section r
  | More _ :: r => laid_out in_section in_entry r
  end.

(** ** Their meaning *)
Definition same_name (a b : text) : bool := if text_eq_dec (upper a) (upper b) then true else false.
Record content := { c_section : option text; c_key : option text; c_known : text -> bool; c_value : text -> text -> option text }.
Definition no_content : content := {| c_section := None; c_key := None; c_known := fun _ => false; c_value := fun _ _ => None |}.
Definition write (s k v : text) (f : text -> text -> option text) : text -> text -> option text :=
  fun s' k' => if same_name s s' && same_name k k' then Some v else f s' k'.
Definition add_item (c : content) (i : item) : content :=
  match i with
  | Nothing => {| c_section := c_section c; c_key := None; c_known := c_known c; c_value := c_value c |}
  | Remark => c
  | Heading s => (* a heading starts the section afresh *)
    {| c_section := Some s; c_key := None; c_known := fun s' => same_name s s' || c_known c s';
       c_value := fun s' k' => if same_name s s' then None else c_value c s' k' |}
  | Entry _ k v =>
    match c_section c with
    | None => c (* an entry before the first heading is ignored *)
    | Some s => {| c_section := c_section c; c_key := Some k; c_known := c_known c; c_value := write s k v (c_value c) |}
    end
  | More t =>
    match c_section c, c_key c with
    | Some s, Some k =>
      {| c_section := c_section c; c_key := c_key c; c_known := c_known c;
         c_value := write s k (match c_value c s k with Some v => v | None => [] end ++ nl :: t) (c_value c) |}
    | _, _ => c
    end
  end.
Definition contents (is : list item) : content := fold_left add_item is no_content.

(** section and key names in a query *)
Definition query_name (t : text) : Prop := trimmed t /\ without ["."%char] t.
(** the file with these lines *)
Definition ini_file (ls : list string) : text := flat_map (fun l => lit l ++ [nl]) ls.
Definition query (s k : text) : text := s ++ "."%char :: k.
(** a line that starts neither with a space nor with a separator *)
Definition safe_line (l : text) : Prop := match l with c :: _ => c <> sp /\ is_assign c = false | [] => True end.

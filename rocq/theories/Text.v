(** Text and binary files: characters, numbers, lines, words. Nothing here
    models a particular function of /repo; these are the parts of the C++
    library its input and output functions use. *)
From Coq Require Import Ascii String QArith Qcanon ZArith NArith Bool.
From Verif Require Import Base.
Local Open Scope nat_scope.

Definition text := list ascii.
Definition code (c : ascii) : N := N_of_ascii c.
Definition sp : ascii := " "%char.
Definition nl : ascii := ascii_of_N 10.
Definition lit (s : string) : text := list_ascii_of_string s.

(** std::isspace, std::isdigit, std::isalpha in the "C" locale *)
Definition is_space (c : ascii) : bool := ((code c =? 32) || (9 <=? code c) && (code c <=? 13))%N.
Definition is_digit (c : ascii) : bool := ((48 <=? code c) && (code c <=? 57))%N.
Definition is_alpha (c : ascii) : bool :=
  ((65 <=? code c) && (code c <=? 90) || (97 <=? code c) && (code c <=? 122))%N.
Definition digit_val (c : ascii) : N := (code c - 48)%N.

Fixpoint take_while (p : ascii -> bool) (s : text) : text :=
  match s with [] => [] | c :: r => if p c then c :: take_while p r else [] end.
Fixpoint drop_while (p : ascii -> bool) (s : text) : text :=
  match s with [] => [] | c :: r => if p c then drop_while p r else s end.

(** decimal digits of a number, as written by operator<< and fmt *)
Fixpoint digits_loop (fuel : nat) (n : N) : text :=
  let d := ascii_of_N (48 + n mod 10) in
  match fuel with
  | 0 => [d]
  | S f => if (n <? 10)%N then [d] else digits_loop f (n / 10) ++ [d]
  end.
Definition show_N (n : N) : text := digits_loop (N.to_nat (N.size n)) n.
Definition show_nat (n : nat) : text := show_N (N.of_nat n).
Definition show_Z (z : Z) : text :=
  if (z <? 0)%Z then "-"%char :: show_N (Z.to_N (- z)) else show_N (Z.to_N z).

(** the value of a sequence of digits *)
Definition digits_val (s : text) : N := fold_left (fun a c => 10 * a + digit_val c)%N s 0%N.

(** an optional sign *)
Definition take_sign (s : text) : bool * text :=
  match s with
  | c :: r => if Ascii.eqb c "-" then (true, r) else if Ascii.eqb c "+" then (false, r) else (false, s)
  | [] => (false, s)
  end.
(** std::stoi (bits = 32), std::stoll (bits = 64): leading white space and the
    longest prefix that is a number; throws without digits or out of range *)
Definition sto (bits : N) (s : text) : res Z :=
  let '(neg, s) := take_sign (drop_while is_space s) in
  let ds := take_while is_digit s in
  match ds with
  | [] => Err Throw
  | _ =>
    let v := if neg then (- Z.of_N (digits_val ds))%Z else Z.of_N (digits_val ds) in
    if ((- 2 ^ Z.of_N (bits - 1) <=? v) && (v <? 2 ^ Z.of_N (bits - 1)))%Z then Ok v else Err Throw
  end.
Definition stoi : text -> res Z := sto 32.
Definition stoll : text -> res Z := sto 64.

(** std::stod: leading white space and the longest prefix that is a decimal
    number; throws without digits. [rnd] converts the exact decimal to a double
    and may report it as out of range. Hexadecimal numbers, infinities and NaNs
    are not modelled (no conversion). *)
Definition stod (rnd : Q -> res Qc) (s : text) : res Qc :=
  let '(neg, s) := take_sign (drop_while is_space s) in
  let ip := take_while is_digit s in
  let s := drop_while is_digit s in
  let '(fp, s) := match s with
                  | c :: r => if Ascii.eqb c "." then (take_while is_digit r, drop_while is_digit r) else ([], s)
                  | [] => ([], s)
                  end in
  match ip ++ fp with
  | [] => Err Throw
  | ds =>
    let e := match s with
             | c :: r => if Ascii.eqb c "e" || Ascii.eqb c "E" then
                 let '(eneg, r) := take_sign r in
                 let ed := take_while is_digit r in
                 if eneg then (- Z.of_N (digits_val ed))%Z else Z.of_N (digits_val ed)
               else 0%Z
             | [] => 0%Z
             end in
    let m := if neg then (- Z.of_N (digits_val ds))%Z else Z.of_N (digits_val ds) in
    rnd (inject_Z m * Qpower (inject_Z 10) (e - Z.of_nat (List.length fp)))%Q
  end.

(** the lines std::getline delivers one after the other *)
Fixpoint lines (f : text) : list text :=
  match f with
  | [] => []
  | c :: r => if Ascii.eqb c nl then [] :: lines r
              else match lines r with [] => [[c]] | l :: ls => (c :: l) :: ls end
  end.

(** the maximal sequences of characters other than those in [p] *)
Fixpoint split_by (p : ascii -> bool) (s : text) : list text :=
  match s with
  | [] => []
  | c :: r =>
    if p c then split_by p r
    else match r with
         | [] => [[c]]
         | c' :: _ => if p c' then [c] :: split_by p r
                      else match split_by p r with [] => [[c]] | t :: ts => (c :: t) :: ts end
         end
  end.
(** the strings extracted by operator>> one after the other *)
Definition words : text -> list text := split_by is_space.

(** right alignment in a field of [w] characters (std::setw, fmt on numbers) *)
Definition pad (w : nat) (t : text) : text := repeat sp (w - List.length t) ++ t.

(** little-endian integers of [k] bytes *)
Fixpoint to_bytes (k : nat) (n : N) : list N :=
  match k with 0 => [] | S k' => (n mod 256)%N :: to_bytes k' (n / 256) end.
Fixpoint of_bytes (l : list N) : N :=
  match l with [] => 0%N | b :: r => (b + 256 * of_bytes r)%N end.
(** istream::read of [k] bytes: what is read, and the rest of the file; a short
    file leaves (part of) the destination as it was, modelled as an error *)
Definition take_bytes (k : nat) (f : list N) : res (list N * list N) :=
  if List.length f <? k then Err UB else Ok (firstn k f, skipn k f).
(** the same for [n] consecutive objects of [k] bytes each *)
Fixpoint take_objects (n k : nat) (f : list N) : res (list (list N) * list N) :=
  match n with
  | 0 => Ok ([], f)
  | S n' => do x <- take_bytes k f;
            do y <- take_objects n' k (snd x);
            Ok (fst x :: fst y, snd y)
  end.

(** What file contents mean, independently of the code. *)
From Coq Require Import Ascii String QArith Qcanon ZArith NArith Bool.
From Verif Require Import Base Text.
Local Open Scope nat_scope.

(** the text [show v] is a number the library's double conversion reads back as
    [v]: one word with a decimal point *)
Definition prints (show : Qc -> text) (rnd : Q -> res Qc) (v : Qc) : Prop :=
  (forall c, In c (show v) -> is_space c = false) /\ In "."%char (show v) /\
  stod rnd (show v) = Ok v.

(** ** FCIDUMP *)

(** one line of integral data: four orbital indices counted from 1 (0: none)
    and a value *)
Definition integral : Type := nat * nat * nat * nat * Qc.
Definition indices (e : integral) : list nat := let '(p, q, r, s, _) := e in [p; q; r; s].
Definition value (e : integral) : Qc := snd e.
(** core energy, one-electron and two-electron integrals *)
Definition core_data (e : integral) : Prop := indices e = [0; 0; 0; 0].
Definition one_data (e : integral) : Prop := let '(p, q, r, s, _) := e in p <> 0 /\ q <> 0 /\ r = 0 /\ s = 0.
Definition two_data (e : integral) : Prop := let '(p, q, r, s, _) := e in p <> 0 /\ q <> 0 /\ r <> 0 /\ s <> 0.
Definition proper (e : integral) : Prop := core_data e \/ one_data e \/ two_data e.

(** the fields of a line *)
Definition fields (l : text) : list text := split_by (fun c => Ascii.eqb c sp) l.
(** [t] is the index [n] *)
Definition is_index (t : text) (n : nat) : Prop :=
  t <> [] /\ (forall c, In c t -> is_digit c = true) /\ digits_val t = N.of_nat n /\ (N.of_nat n < 2 ^ 31)%N.
(** a line with four indices before or after a floating-point number *)
Definition data_line (rnd : Q -> res Qc) (l : text) (e : integral) : Prop :=
  let '(p, q, r, s, v) := e in exists a b c d x,
  (fields l = [a; b; c; d; x] \/ fields l = [x; a; b; c; d]) /\
  is_index a p /\ is_index b q /\ is_index c r /\ is_index d s /\
  (exists ch, In ch x /\ (is_alpha ch = true \/ ch = "."%char)) /\ stod rnd x = Ok v.
(** the data of a file: lines without exactly five fields carry none *)
Inductive data_lines (rnd : Q -> res Qc) : list text -> list integral -> Prop :=
| dl_nil : data_lines rnd [] []
| dl_skip l ls es : List.length (fields l) <> 5 -> data_lines rnd ls es -> data_lines rnd (l :: ls) es
| dl_data l ls e es : data_line rnd l e -> data_lines rnd ls es -> data_lines rnd (l :: ls) (e :: es).

(** index pairs up to order; (pq|rs) up to its eight permutations *)
Definition same_pair (a b p q : nat) : bool := (a =? p) && (b =? q) || (a =? q) && (b =? p).
Definition one_at (e : integral) (p q : nat) : bool :=
  let '(a, b, c, d, _) := e in (c =? 0) && (d =? 0) && same_pair a b (S p) (S q).
Definition two_at (e : integral) (p q r s : nat) : bool :=
  let '(a, b, c, d, _) := e in
  same_pair a b (S p) (S q) && same_pair c d (S r) (S s) ||
  same_pair a b (S r) (S s) && same_pair c d (S p) (S q).
(** the value of the last integral satisfying [P], or [dflt] *)
Definition last_value (P : integral -> bool) (es : list integral) (dflt : Qc) : Qc :=
  fold_left (fun x e => if P e then value e else x) es dflt.
(** the value of the first core line, or 0 *)
Fixpoint first_core (es : list integral) : Qc :=
  match es with
  | [] => 0%Qc
  | e :: r => if forallb (fun i => i =? 0) (indices e) then value e else first_core r
  end.
(** the largest index *)
Definition max_index (es : list integral) : nat := fold_right Nat.max 0 (flat_map indices es).
(** column-major positions *)
Definition pos2 (n p q : nat) : nat := p + n * q.
Definition pos4 (n p q r s : nat) : nat := p + n * (q + n * (r + n * s)).

(** Rutherford-Boeing files, independently of the code. *)
From Coq Require Import Ascii String QArith Qcanon ZArith NArith Bool.
From Verif Require Import Base Ham Text IOSpec SparseIOSpec.
Local Open Scope nat_scope.

(** [t] is a decimal number with value [v] *)
Definition decimal (rnd : Q -> res Qc) (t : text) (v : Qc) : Prop := a_word t /\ stod rnd t = Ok v.
(** lines with the texts of [xs], any number on every line; the last line is not blank *)
Definition block {A} (reads : text -> A -> Prop) (ls : list text) (xs : list A) : Prop :=
  Forall2 reads (flat_map fields ls) xs /\ (ls = [] \/ fields (last ls []) <> []).
(** title; sizes of the blocks; type, rows, columns, elements and one more number; formats; column
    pointers, row indices, values; nothing else *)
Definition rb_file (rnd : Q -> res Qc) (ls : list text) (m n : nat) (cp ri : list nat) (vs : list Qc) : Prop :=
  exists title sizes head formats b1 b2 b3 ty tm tn tz te,
  ls = title :: sizes :: head :: formats :: b1 ++ b2 ++ b3 /\
  fields head = [ty; tm; tn; tz; te] /\ number tm m /\ number tn n /\ number tz (List.length vs) /\
  block is_index b1 cp /\ block is_index b2 ri /\ block (decimal rnd) b3 vs.

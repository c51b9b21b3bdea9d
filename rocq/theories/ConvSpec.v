(** Vocabulary for format conversions, extraction and permutation of sparse
    matrices, independent of the code. *)
From Coq Require Import QArith Qcanon Sorting.Sorted Sorting.Permutation.
From Verif Require Import Base Sums SparseSpec Spmv SpmvSpec Sparse.
Local Open Scope nat_scope.

(** minor indices do not decrease along a line (equal ones are allowed) *)
Definition ordered_line (l : list (nat * Qc)) : Prop := StronglySorted le (map fst l).

(** compressed-column matrices: a line is a column, given by (row, value) pairs *)
Definition csc_wf (A : csc) : Prop :=
  wf_compressed (csc_ind A) (csc_n A) (csc_m A) (colptr A) (rowind A) (csc_val A).
Definition csc_line (A : csc) (j : nat) : list (nat * Qc) :=
  line (csc_ind A) (colptr A) (rowind A) (csc_val A) j.
Definition csc_entry (A : csc) (i j : nat) : Qc := entry (csc_line A j) i.

(** [p] lists 0, ..., n-1 in some order *)
Definition is_perm (n : nat) (p : list nat) : Prop := Permutation (seq 0 n) p.

(** pairs in lexicographic order *)
Definition lex_le (a b : nat * nat) : Prop := fst a < fst b \/ (fst a = fst b /\ snd a <= snd b).
(** a line has a stored element at minor index [j] *)
Definition stored (l : list (nat * Qc)) (j : nat) : bool := existsb (fun cv => fst cv =? j) l.
(** a coordinate matrix has a stored element at (i, j) *)
Definition coo_stored (A : coo) (i j : nat) : bool :=
  existsb (fun t => (fst (fst t) =? i) && (snd (fst t) =? j)) (coo_triples A).
(** all stored elements on or above (below) the diagonal *)
Definition coo_upper (A : coo) : Prop := forall t, In t (coo_triples A) -> fst (fst t) <= snd (fst t).
Definition coo_lower (A : coo) : Prop := forall t, In t (coo_triples A) -> snd (fst t) <= fst (fst t).
(** the number of stored diagonal elements *)
Definition diagonal_count (A : coo) : nat :=
  length (filter (fun t => fst (fst t) =? snd (fst t)) (coo_triples A)).
(** positions of the elements of part [p], in increasing order *)
Definition members (part : list nat) (p : nat) : list nat :=
  filter (fun i => nth i part 0 =? p) (seq 0 (length part)).

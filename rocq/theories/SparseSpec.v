(** What a compressed sparse matrix means, independently of the code. *)
From Coq Require Import QArith Qcanon Sorting.Sorted.
From Verif Require Import Base Sums.
Local Open Scope nat_scope.

(** elements a, a+1, ..., b-1 of a list *)
Definition seg {A} (l : list A) (a b : nat) : list A := firstn (b - a) (skipn a l).

(** a well-formed compressed format: [m] major lines (rows of CSR, columns of
    CSC), [n] minor indices, pointer array [ptr], minor indices [idx], values
    [val], everything counted from [ind] (0 or 1) *)
Definition wf_compressed (ind m n : nat) (ptr idx : list nat) (val : list Qc) : Prop :=
  length ptr = m + 1 /\ nth 0 ptr 0 = ind /\
  (forall i, i < m -> nth i ptr 0 <= nth (S i) ptr 0) /\
  nth m ptr 0 = ind + length idx /\ length val = length idx /\
  (forall c, In c idx -> ind <= c < ind + n).

(** the stored (minor index, value) pairs of major line [i], counted from 0 *)
Definition line (ind : nat) (ptr idx : list nat) (val : list Qc) (i : nat) : list (nat * Qc) :=
  let a := nth i ptr 0 - ind in
  let b := nth (S i) ptr 0 - ind in
  combine (map (fun c => c - ind) (seg idx a b)) (seg val a b).

(** the entry of a line at minor index [j]: stored values with that index add up *)
Definition entry (l : list (nat * Qc)) (j : nat) : Qc :=
  sum l (fun cv => if fst cv =? j then snd cv else 0%Qc).

(** minor indices strictly increase within every line *)
Definition sorted_line (l : list (nat * Qc)) : Prop := StronglySorted lt (map fst l).

(** consecutive tiles covering [a, b) *)
Inductive tiling : nat -> nat -> list (nat * nat) -> Prop :=
| tiling_nil a : tiling a a []
| tiling_cons a b c l : a <= b -> tiling b c l -> tiling a c ((a, b) :: l).

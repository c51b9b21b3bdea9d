(** Adjacency lists, independent of the code. *)
From Coq Require Import QArith Qcanon.
From Verif Require Import Base Ham SparseSpec CsrView.
Local Open Scope nat_scope.

(** the vertices listed as neighbours of vertex [i], counted from 0 *)
Definition neighbours (base : nat) (xadj adjncy : list nat) (i : nat) : list nat :=
  map (fun c => c - base) (seg adjncy (nth i xadj 0 - base) (nth (S i) xadj 0 - base)).
(** adjacency lists of [n] vertices below [m], everything counted from [base] *)
Definition adjacency_lists (base n m : nat) (xadj adjncy : list nat) : Prop :=
  length xadj = n + 1 /\ nth 0 xadj 0 = base /\ (forall i, i < n -> nth i xadj 0 <= nth (S i) xadj 0) /\
  nth n xadj 0 = base + length adjncy /\ forall c, In c adjncy -> base <= c < base + m.
(** columns stored in row [i] *)
Definition stored (A : csr) (i : nat) : list nat := map fst (csr_line A i).
Definition no_repeats (A : csr) : Prop := forall i, i < csr_m A -> NoDup (stored A i).
Definition symmetric_pattern (A : csr) : Prop := forall i j, i < csr_m A -> j < csr_m A -> (In j (stored A i) <-> In i (stored A j)).

(** The specification view of a CSR matrix. *)
From Coq Require Import QArith Qcanon.
From Verif Require Import Base Sums Ham SparseSpec.
Local Open Scope nat_scope.

(** the (column, value) pairs stored in row [i] *)
Definition csr_line (A : csr) (i : nat) : list (nat * Qc) :=
  line (csr_ind A) (rowptr A) (colind A) (nzval A) i.
Definition csr_wf (A : csr) : Prop :=
  wf_compressed (csr_ind A) (csr_m A) (csr_n A) (rowptr A) (colind A) (nzval A).
(** the matrix entry (i, j) *)
Definition csr_entry (A : csr) (i j : nat) : Qc := entry (csr_line A i) j.
(** the stored pair lies in a column of [st, en) *)
Definition inside (st en : nat) (cv : nat * Qc) : bool := (st <=? fst cv) && (fst cv <? en).

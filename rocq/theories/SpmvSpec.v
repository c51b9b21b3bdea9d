(** What a row-distributed matrix means, independently of the code. *)
From Coq Require Import QArith Qcanon.
From Verif Require Import Base Sums Ham SparseSpec CsrView Spmv.
Local Open Scope nat_scope.

(** [A] is rank [r]'s part of an M by M matrix distributed in the row [tiles]:
    the diagonal tile holds the square block of its own rows and columns, with
    columns counted from the first one of the tile; the off-diagonal tile, if
    there is one, holds the remaining columns under their global index, counted
    from 0 *)
Definition dist_part (M : nat) (tiles : list (nat * nat)) (r : nat) (A : dist_csr) : Prop :=
  d_n A = M /\ d_tiles A = tiles /\
  exists lo hi, nth_error tiles r = Some (lo, hi) /\
    csr_wf (d_diag A) /\ csr_m (d_diag A) = hi - lo /\ csr_n (d_diag A) = hi - lo /\
    forall B, d_off A = Some B ->
      csr_wf B /\ csr_m B = hi - lo /\ csr_n B = M /\ csr_ind B = 0 /\
      (forall c, In c (colind B) -> c < lo \/ hi <= c).

(** entry (lo + i, j) of the matrix, from the part of the rank owning rows [lo, hi) *)
Definition dist_entry (A : dist_csr) (lo hi i j : nat) : Qc :=
  if (lo <=? j) && (j <? hi) then csr_entry (d_diag A) i (j - lo)
  else match d_off A with None => 0%Qc | Some B => csr_entry B i j end.

(** the columns of the tile [st, en) that [A] has stored elements in *)
Definition demand (A : dist_csr) (tile : nat * nat) : list nat :=
  match d_off A with
  | None => []
  | Some B => filter (fun c => existsb (Nat.eqb c) (colind B)) (seq (fst tile) (snd tile - fst tile))
  end.
(** total number of vector elements rank [A] receives, and the owner of [tile] sends *)
Definition received (tiles : list (nat * nat)) (A : dist_csr) : nat :=
  list_sum (map (fun t => length (demand A t)) tiles).
Definition sent (As : list dist_csr) (tile : nat * nat) : nat :=
  list_sum (map (fun A => length (demand A tile)) As).

(** a well-formed coordinate-format matrix, its stored (row, column, value)
    triples counted from 0, and its entries: stored values with the same indices
    add up *)
Definition coo_wf (A : coo) : Prop :=
  length (coo_row A) = length (coo_val A) /\ length (coo_col A) = length (coo_val A) /\
  (forall r, In r (coo_row A) -> coo_ind A <= r < coo_ind A + coo_m A) /\
  (forall c, In c (coo_col A) -> coo_ind A <= c < coo_ind A + coo_n A).
Definition coo_triples (A : coo) : list (nat * nat * Qc) :=
  combine (combine (map (fun r => r - coo_ind A) (coo_row A)) (map (fun c => c - coo_ind A) (coo_col A))) (coo_val A).
Definition coo_entry (A : coo) (i j : nat) : Qc :=
  sum (coo_triples A) (fun t => if (fst (fst t) =? i) && (snd (fst t) =? j) then snd t else 0%Qc).

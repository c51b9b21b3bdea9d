(** Model of sparsexx/matrix_types/dist_sparse_matrix.hpp (row tiling). No proofs. *)
From Coq Require Import QArith Qcanon.
From Verif Require Import Base Ham.
Local Open Scope nat_scope.

(* dist_sparse_matrix.hpp:55-58: for i in 1..comm_size-1, the tile of rank i
   starts where the previous one ended and has nrow_per_rank rows *)
Fixpoint tile_loop (k per last : nat) : list (nat * nat) :=
  match k with
  | 0 => []
  | S k' => (last, last + per) :: tile_loop k' per (last + per)
  end.

(* back().second += c; back() of an empty vector is undefined *)
Fixpoint add_last (l : list (nat * nat)) (c : nat) : res (list (nat * nat)) :=
  match l with
  | [] => Err UB
  | [(a, b)] => Ok [(a, b + c)]
  | x :: r => do r' <- add_last r c; Ok (x :: r')
  end.

(* dist_sparse_matrix.hpp:46-61 default row partitioning; M / comm_size with
   comm_size = 0 is undefined *)
Definition default_tiles (M P : nat) : res (list (nat * nat)) :=
  if P =? 0 then Err UB
  else add_last ((0, M / P) :: tile_loop (P - 1) (M / P) (M / P)) (M mod P).

(* dist_sparse_matrix.hpp:64-82 validation of a custom row partitioning; the
   loops are conjunctions over all tiles *)
Definition custom_tiles (M P : nat) (t : list (nat * nat)) : res (list (nat * nat)) :=
  if negb (length t =? P) then Err Throw
  else match t with
  | [] => Err UB
  | t0 :: _ =>
    if negb (fst t0 =? 0) || negb (snd (last t (0, 0)) =? M) then Err Throw
    else if existsb (fun ij => snd ij <? fst ij) t then Err Throw
    else if existsb (fun i => negb (snd (nth i t (0, 0)) =? fst (nth (S i) t (0, 0))))
              (seq 0 (P - 1)) then Err Throw
    else Ok t
  end.

(* csr_hamiltonian.hpp:46-81 make_dist_csr_hamiltonian as seen by rank [r] of [P] *)
Definition make_dist_csr_hamiltonian (W : nat) (h : ints) (thr : Qc) (sds : list N) (P r : nat)
  : res (csr * option csr) :=
  do t <- default_tiles (length sds) P;
  match nth_error t r with
  | None => Err UB
  | Some (st, en) => make_dist_csr W h thr sds P st en
  end.

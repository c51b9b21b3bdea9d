(** Model of include/macis/util/diis.hpp. Vectors are lists of exact rationals.
    [gelss n B c] stands for lapack::gelss(n, n, 1, B, n, c, n, S, -1.0, &rank): the
    overwritten right-hand side. Logging is not modelled. No proofs in this file. *)
From Coq Require Import QArith Qcanon.
From Verif Require Import Base Ham Asci Mem.
Local Open Scope nat_scope.

(* diis.hpp:21-24 *)
Record diis := mk_diis { ndiis_max : nat; diis_pairs : list (list Qc * list Qc) }.
(* diis.hpp:27-32 *)
Definition diis_new (nmax : nat) : diis := mk_diis nmax [].
(* diis.hpp:34-48; with ndiis_max = 0 the copy starts behind the end of the vector *)
Definition add_vector (d : diis) (v e : list Qc) : res diis :=
  if length (diis_pairs d) <? ndiis_max d then Ok (mk_diis (ndiis_max d) (diis_pairs d ++ [(v, e)]))
  else match diis_pairs d with
       | [] => Err UB
       | p0 :: rest =>
         (* copy of [1, end) to the front; the last element is still there twice *)
         let shifted := rest ++ [last (p0 :: rest) ([], [])] in
         do l <- put shifted (ndiis_max d - 1) (v, e);
         Ok (mk_diis (ndiis_max d) l)
       end.
(* a history of calls *)
Definition add_all (d : diis) (h : list (list Qc * list Qc)) : res diis :=
  foldM h (fun d ve => add_vector d (fst ve) (snd ve)) d.

(* blas::dot(n, x, 1, y, 1) *)
Definition dot_ (n : nat) (x y : list Qc) : res Qc :=
  sumM 0%Qc (seq 0 n) (fun m => do a <- at_ x m; do b <- at_ y m; Ok (a * b)%Qc).
(* blas::axpy(n, a, x, 1, y, 1) *)
Definition axpy (n : nat) (a : Qc) (x y : list Qc) : res (list Qc) :=
  foldM (seq 0 n) (fun y m => do u <- at_ x m; do w <- at_ y m; put y m (w + a * u)%Qc) y.

(* diis.hpp:50-92 *)
Definition extrapolate (gelss : nat -> list Qc -> list Qc -> res (list Qc)) (d : diis) : res (list Qc) :=
  let ndiis := length (diis_pairs d) in
  let n1 := ndiis + 1 in
  let B := repeat 0%Qc (n1 * n1) in
  (* :57-68 *)
  do B <- foldM (seq 0 ndiis) (fun B i =>
    foldM (seq i (ndiis - i)) (fun B j =>
      do pi <- at_ (diis_pairs d) i;
      do pj <- at_ (diis_pairs d) j;
      do val <- dot_ (length (snd pi)) (snd pi) (snd pj);
      do B <- put B (i + j * n1) val;
      if i =? j then Ok B else put B (j + i * n1) val) B) B;
  (* :71-74 *)
  do B <- foldM (seq 0 ndiis) (fun B i =>
    do B <- put B (i + ndiis * n1) 1%Qc;
    put B (ndiis + i * n1) 1%Qc) B;
  (* :77-82 *)
  do C <- put (repeat 0%Qc n1) ndiis 1%Qc;
  do C <- gelss n1 B C;
  (* :87-92 *)
  do p0 <- at_ (diis_pairs d) 0;
  let n := length (fst p0) in
  foldM (seq 0 ndiis) (fun x i =>
    do c <- at_ C i;
    do p <- at_ (diis_pairs d) i;
    axpy n c (fst p) x) (repeat 0%Qc n).

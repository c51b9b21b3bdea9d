(** Vocabulary for the extrapolation of vectors (C49), independent of the code. *)
From Coq Require Import QArith Qcanon.
From Verif Require Import Base Sums DenseSpec.
Local Open Scope nat_scope.

(** the last [n] elements *)
Definition lastn {A} (n : nat) (l : list A) : list A := skipn (length l - n) l.
(** sum over i of c_i times the [m]-th component of the [i]-th vector *)
Definition combination (c : nat -> Qc) (vs : list (list Qc)) (m : nat) : Qc :=
  Sigma (length vs) (fun i => c i * nth m (nth i vs []) 0)%Qc.
(** squared length of a vector with [n] components *)
Definition norm2 (n : nat) (f : nat -> Qc) : Qc := Sigma n (fun m => f m * f m)%Qc.
(** squared length of B c - b *)
Definition residual (n : nat) (B : nat -> nat -> Qc) (b c : nat -> Qc) : Qc :=
  norm2 n (fun i => Sigma n (fun j => B i j * c j) - b i)%Qc.
(** a solver for least squares problems with square matrices *)
Definition least_squares (gelss : nat -> list Qc -> list Qc -> res (list Qc)) : Prop :=
  forall n B b c, gelss n B b = Ok c -> length c = n /\
    forall c', (residual n (at2 B n) (fun i => nth i b 0%Qc) (fun i => nth i c 0%Qc) <=
                residual n (at2 B n) (fun i => nth i b 0%Qc) c')%Qc.
(** the matrix of inner products with a border of ones, and the right-hand side *)
Definition bordered_gram (n : nat) (es : list (list Qc)) (i j : nat) : Qc :=
  let k := length es in
  if i =? k then (if j =? k then 0%Qc else 1%Qc)
  else if j =? k then 1%Qc else dot n (nth i es []) (nth j es []).

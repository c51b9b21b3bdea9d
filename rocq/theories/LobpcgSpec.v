(** Vocabulary for the block eigensolver (C69), independent of the code. *)
From Coq Require Import QArith Qcanon.
From Verif Require Import Base Sums DenseSpec DiisSpec DavSpec.
Local Open Scope nat_scope.

(** [k] columns of [n] numbers *)
Definition columns (n k : nat) (V : list (list Qc)) : Prop := length V = k /\ forall c, In c V -> length c = n.
(** element in row [i] and column [j] *)
Definition entry (M : list (list Qc)) (i j : nat) : Qc := nth i (nth j M []) 0%Qc.
(** the columns of [AX] are the products of the matrix with those of [X] *)
Definition image (n : nat) (A : nat -> nat -> Qc) (X AX : list (list Qc)) : Prop :=
  length AX = length X /\ forall j, j < length X -> length (nth j AX []) = n /\ forall i, i < n -> entry AX i j = matvec n A (nth j X []) i.
(** the operator multiplies blocks of columns with the matrix *)
Definition multiplies_blocks (n : nat) (A : nat -> nat -> Qc) (op : list (list Qc) -> res (list (list Qc))) : Prop :=
  forall k X Y, columns n k X -> op X = Ok Y -> image n A X Y.
Definition keeps_shape (n : nat) (op : list (list Qc) -> res (list (list Qc))) : Prop :=
  forall k X Y, columns n k X -> op X = Ok Y -> columns n k Y.
Definition ascending (W : list Qc) : Prop := forall i j, i <= j -> j < length W -> (nth i W 0 <= nth j W 0)%Qc.
(** all eigenvalues, ascending, and an orthogonal matrix of eigenvectors of symmetric matrices *)
Definition diagonaliser (syev : nat -> list (list Qc) -> res (list Qc * list (list Qc))) : Prop :=
  forall k M W C, syev k M = Ok (W, C) -> columns k k M -> symmetric2 k (entry M) ->
    length W = k /\ columns k k C /\ orthonormal k k C /\ ascending W /\
    (forall a b, a < k -> b < k -> Sigma k (fun j => entry C a j * entry C b j)%Qc = if a =? b then 1%Qc else 0%Qc) /\
    (forall j i, j < k -> i < k -> matvec k (entry M) (nth j C []) i = (nth j W 0 * entry C i j)%Qc).
(** lower triangular factors: G = L L' *)
Definition cholesky (potrf : nat -> list (list Qc) -> res (list (list Qc))) : Prop :=
  forall k G L, potrf k G = Ok L -> columns k k G -> symmetric2 k (entry G) ->
    (forall i, i < k -> entry L i i <> 0%Qc) /\
    forall i j, j <= i -> i < k -> Sigma (S j) (fun l => entry L i l * entry L j l)%Qc = entry G i j.
(** orthogonal matrices *)
Definition orthogonal_factor (gelqf : nat -> nat -> list (list Qc) -> res (list (list Qc))) : Prop :=
  forall k m M Q, gelqf k m M = Ok Q -> columns k m M -> columns m m Q /\ orthonormal m m Q.
(** the residual norm of a pair, relative to the sizes of A x and of the value *)
Definition relative_residual (root : Qc -> Qc) (n : nat) (A : nat -> nat -> Qc) (lam : Qc) (x : list Qc) (r : Qc) : Prop :=
  (r * (root (norm2 n (matvec n A x)) + (if SD.qlt lam 0 then - lam else lam)) = root (residual2 n A lam x))%Qc.
Definition absolute_residual (root : Qc -> Qc) (n : nat) (A : nat -> nat -> Qc) (lam : Qc) (x : list Qc) (r : Qc) : Prop :=
  r = root (residual2 n A lam x).
(** x . A y *)
Definition coupling (n : nat) (A : nat -> nat -> Qc) (x y : list Qc) : Qc := Sigma n (fun i => nth i x 0 * matvec n A y i)%Qc.
(** Ritz pairs: orthonormal vectors, values ascending, and the matrix diagonal between them *)
Definition ritz_pairs (n k : nat) (A : nat -> nat -> Qc) (lam : list Qc) (X : list (list Qc)) : Prop :=
  columns n k X /\ orthonormal n k X /\ (forall i j, i <= j -> j < k -> (nth i lam 0 <= nth j lam 0)%Qc) /\
  forall i j, i < k -> j < k -> coupling n A (nth i X []) (nth j X []) = if i =? j then nth i lam 0%Qc else 0%Qc.
(** sum of the first [k] numbers *)
Definition first_sum (k : nat) (W : list Qc) : Qc := Sigma k (fun i => nth i W 0%Qc).
(** later lists have smaller sums of their first numbers, for every number of these up to [K] *)
Definition sums_descend (K : nat) (Ws : list (list Qc)) : Prop :=
  forall a b k, a <= b -> b < length Ws -> k <= K -> (first_sum k (nth b Ws []) <= first_sum k (nth a Ws []))%Qc.
(** linear combination of columns *)
Definition combination (n : nat) (V : list (list Qc)) (c : list Qc) : list Qc :=
  map (fun i => Sigma (length V) (fun l => nth i (nth l V []) 0 * nth l c 0)%Qc) (seq 0 n).

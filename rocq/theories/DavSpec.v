(** Vocabulary for the eigensolver (C50), independent of the code. *)
From Coq Require Import QArith Qcanon.
From Verif Require Import Base SD FockSpec SlaterCondon Ham Nondet Sums DenseSpec DiisSpec SparseSpec CsrView Spmv SpmvSpec DistProofs.
Local Open Scope nat_scope.

(** A x, for a matrix given by its entries *)
Definition matvec (n : nat) (A : nat -> nat -> Qc) (x : list Qc) (i : nat) : Qc :=
  Sigma n (fun j => A i j * nth j x 0)%Qc.
(** x . A x *)
Definition expectation (n : nat) (A : nat -> nat -> Qc) (x : list Qc) : Qc :=
  Sigma n (fun i => nth i x 0 * matvec n A x i)%Qc.
(** squared length of A x - lam x *)
Definition residual2 (n : nat) (A : nat -> nat -> Qc) (lam : Qc) (x : list Qc) : Qc :=
  norm2 n (fun i => matvec n A x i - lam * nth i x 0)%Qc.
(** the operator multiplies vectors of [n] numbers with the matrix [A] *)
Definition multiplies (n : nat) (A : nat -> nat -> Qc) (op : list Qc -> list Qc -> nd (list Qc)) : Prop :=
  forall v av, length v = n -> length av = n ->
    if_returns (op v av) (fun w => length w = n /\ forall i, i < n -> nth i w 0%Qc = matvec n A v i).
(** ... and always does so *)
Definition always_multiplies (n : nat) (A : nat -> nat -> Qc) (op : list Qc -> list Qc -> nd (list Qc)) : Prop :=
  forall v av, length v = n -> length av = n ->
    always (op v av) (fun w => length w = n /\ forall i, i < n -> nth i w 0%Qc = matvec n A v i).
(** square roots without rounding: where there is no exact result the value is 0 *)
Definition exact_root (root : Qc -> Qc) : Prop := forall q, root q = 0%Qc \/ (root q * root q = q)%Qc.
(** the first eigenpair returned for a symmetric matrix is a lowest one, of length one *)
Definition lowest_eigenpair (k : nat) (M : nat -> nat -> Qc) (lam : Qc) (c : nat -> Qc) : Prop :=
  norm2 k c = 1%Qc /\ (forall i, i < k -> (Sigma k (fun j => M i j * c j) = lam * c i)%Qc) /\
  forall y, (lam * norm2 k y <= Sigma k (fun i => y i * Sigma k (fun j => M i j * y j)))%Qc.
Definition eigensolver (syev : nat -> list Qc -> res (list Qc * list Qc)) : Prop :=
  forall k M W C, syev k M = Ok (W, C) -> length M = k * k -> symmetric2 k (at2 M k) ->
    length W = k /\ length C = k * k /\ lowest_eigenpair k (at2 M k) (nth 0 W 0%Qc) (fun i => nth i C 0%Qc).
(** [b] is a lower bound of the spectrum *)
Definition spectrum_above (n : nat) (A : nat -> nat -> Qc) (b : Qc) : Prop :=
  forall x, (b * dot n x x <= expectation n A x)%Qc.
(** the [k] vectors are of length one and orthogonal to each other *)
Definition orthonormal (n k : nat) (V : list (list Qc)) : Prop :=
  forall a b, a < k -> b < k -> dot n (nth a V []) (nth b V []) = if a =? b then 1%Qc else 0%Qc.
(** [i] is a position of a smallest element *)
Definition smallest_at (D : list Qc) (i : nat) : Prop :=
  i < length D /\ forall j, j < length D -> (nth i D 0 <= nth j D 0)%Qc.
(** the unit vector *)
Definition unit_vector (n i : nat) : list Qc := map (fun j => if j =? i then 1%Qc else 0%Qc) (seq 0 n).
(** a square sparse matrix in good form without repeated entries; its diagonal *)
Definition clean (H : csr) : Prop := csr_wf H /\ csr_n H = csr_m H /\ forall i, i < csr_m H -> NoDup (map fst (csr_line H i)).
Definition diagonal (H : csr) : list Qc := map (fun i => csr_entry H i i) (seq 0 (csr_m H)).
(** the Hamiltonian matrix of the determinants, without elements up to the threshold *)
Definition ci_matrix (W : nat) (h : ints) (thr : Qc) (sds : list N) (i j : nat) : Qc :=
  let x := ham W (norb h) (T_pq h) (V_pqrs h) (nth i sds 0%N) (nth j sds 0%N) in
  if qlt thr (Qcabs x) then x else 0%Qc.

(** ** vectors and matrices spread over ranks *)
(** rank r holds [nth r Ns 0] numbers *)
Definition shaped (Ns : list nat) (x : list (list Qc)) : Prop := length x = length Ns /\ forall r, r < length Ns -> length (nth r x []) = nth r Ns 0.
Definition total (Ns : list nat) : nat := list_sum Ns.
(** the number of rows of every rank *)
Definition extents (tiles : list (nat * nat)) : list nat := map (fun t => snd t - fst t) tiles.
(** the parts of the ranks together are the M by M matrix [A] *)
Definition parts_of (M : nat) (tiles : list (nat * nat)) (As : list dist_csr) (A : nat -> nat -> Qc) : Prop :=
  tiling 0 M tiles /\ length As = length tiles /\
  forall r B, nth_error As r = Some B -> dist_part M tiles r B /\
    forall lo hi i j, nth_error tiles r = Some (lo, hi) -> i < hi - lo -> j < M -> dist_entry B lo hi i j = A (lo + i) j.
(** no rank exchanges more numbers than fit an int *)
Definition int_sizes (tiles : list (nat * nat)) (As : list dist_csr) : Prop :=
  (forall r B, nth_error As r = Some B -> (Z.of_nat (received tiles B) < 2 ^ 31)%Z) /\
  (forall r t, nth_error tiles r = Some t -> (Z.of_nat (sent As t) < 2 ^ 31)%Z).
(** the main diagonal *)
Definition diag_of_matrix (M : nat) (A : nat -> nat -> Qc) : list Qc := map (fun i => A i i) (seq 0 M).

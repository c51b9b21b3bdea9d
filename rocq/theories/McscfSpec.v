(** Vocabulary for the orbital optimisation (C56 - C60), independent of the code. *)
From Coq Require Import QArith Qcanon Qcabs.
From Verif Require Import Base Sums SD Spec FockSpec SlaterCondon DenseSpec DiisSpec.
Local Open Scope nat_scope.

(** the columns of U are orthonormal *)
Definition orthogonal (n : nat) (U : nat -> nat -> Qc) : Prop :=
  forall i j, i < n -> j < n -> (Sigma n (fun l => U l i * U l j) = if i =? j then 1 else 0)%Qc.
Definition identity (i j : nat) : Qc := if i =? j then 1%Qc else 0%Qc.
Definition antisymmetric (n : nat) (K : nat -> nat -> Qc) : Prop := forall i j, i < n -> j < n -> (K j i = - K i j)%Qc.
(** what is used of the matrix exponential: that of an antisymmetric matrix is orthogonal *)
Definition exponential (expm : nat -> list Qc -> res (list Qc)) : Prop :=
  forall n M X, expm n M = Ok X -> length M = n * n -> antisymmetric n (at2 M n) -> length X = n * n /\ orthogonal n (at2 X n).
(** equality of integrals for orbitals below [n] *)
Definition same2 (n : nat) (A B : nat -> nat -> Qc) : Prop := forall p q, p < n -> q < n -> A p q = B p q.
Definition same4 (n : nat) (A B : nat -> nat -> nat -> nat -> Qc) : Prop :=
  forall p q r s, p < n -> q < n -> r < n -> s < n -> A p q r s = B p q r s.
(** the integrals of the active space: the field of the doubly occupied inactive orbitals
    is part of the one-body integrals *)
Definition active_T (ni : nat) (T : nat -> nat -> Qc) (V : nat -> nat -> nat -> nat -> Qc) : nat -> nat -> Qc := shift2 ni (inactive_fock ni T V).
Definition active_V (ni : nat) (V : nat -> nat -> nat -> nat -> Qc) : nat -> nat -> nat -> nat -> Qc := shift4 ni V.
(** derivative of the energy with respect to the rotation of the orbitals p and q *)
Definition orbital_gradient (ni na : nat) (T : nat -> nat -> Qc) (V : nat -> nat -> nat -> nat -> Qc)
    (D : nat -> nat -> Qc) (D2 : nat -> nat -> nat -> nat -> Qc) (p q : nat) : Qc :=
  let F r s := if r <? ni + na then generalized_fock ni na T V D D2 r s else 0%Qc in (two * (F p q - F q p))%Qc.
(** sum of its squares over the pairs of orbitals of different kind *)
Definition gradient_norm2 (ni na nv : nat) (T : nat -> nat -> Qc) (V : nat -> nat -> nat -> nat -> Qc)
    (D : nat -> nat -> Qc) (D2 : nat -> nat -> nat -> nat -> Qc) : Qc :=
  let n := ni + na + nv in
  Sigma n (fun p => Sigma n (fun q => if rotatesb ni na nv p q then
    orbital_gradient ni na T V D D2 p q * orbital_gradient ni na T V D D2 p q else 0))%Qc.
Definition trace (n : nat) (D : nat -> nat -> Qc) : Qc := Sigma n (fun i => D i i).
(** the array starts with [n] zeros *)
Definition zeros (n : nat) (A : list Qc) : Prop := n <= length A /\ forall x, x < n -> nth x A 0%Qc = 0%Qc.
(** all determinants with these numbers of electrons, without repetition *)
Definition whole_space (W n na nb : nat) (dets : list N) : Prop :=
  NoDup dets /\ forall b, In b dets <-> in_space W n b /\ size_is (alpha W b) na /\ size_is (beta W b) nb.
(** the solver returns as many numbers as there are unknowns *)
Definition sized (gelss : nat -> list Qc -> list Qc -> res (list Qc)) : Prop := forall n B b c, gelss n B b = Ok c -> length c = n.
(** [T'], [V'] are the integrals [T], [V] in the orbitals that are the columns of [U] *)
Definition rotated (n : nat) (U : nat -> nat -> Qc) (T : nat -> nat -> Qc) (V : nat -> nat -> nat -> nat -> Qc)
    (T' : nat -> nat -> Qc) (V' : nat -> nat -> nat -> nat -> Qc) : Prop :=
  orthogonal n U /\ same2 n T' (congruence2 n U T) /\ same4 n V' (congruence4 n U V).
(** the packed arrays [TA], [VA] hold the active-space integrals *)
Definition active_arrays (ni na : nat) (T : nat -> nat -> Qc) (V : nat -> nat -> nat -> nat -> Qc) (TA VA : list Qc) : Prop :=
  length TA = na * na /\ length VA = na * na * (na * na) /\ same2 na (at2 TA na) (active_T ni T V) /\ same4 na (at4 VA na) (active_V ni V).

(** ** the course of an optimisation *)
(** the approximate second derivative used to scale the step at the pair (p, q) *)
Definition orbital_hessian (ni na : nat) (T : nat -> nat -> Qc) (V : nat -> nat -> nat -> nat -> Qc)
    (D : nat -> nat -> Qc) (D2 : nat -> nat -> nat -> nat -> Qc) (p q : nat) : Qc :=
  diagonal_hessian ni na (inactive_fock ni T V) (active_fock ni na V D) (generalized_fock ni na T V D D2) D p q.
(** one point: orbitals, accumulated rotation, the rotation before extrapolation, integrals
    in these orbitals, densities, energy *)
Record point := mk_point {
  p_U : nat -> nat -> Qc; p_K : nat -> nat -> Qc; p_trial : nat -> nat -> Qc;
  p_T : nat -> nat -> Qc; p_V : nat -> nat -> nat -> nat -> Qc;
  p_D : nat -> nat -> Qc; p_D2 : nat -> nat -> nat -> nat -> Qc; p_E : Qc
}.
Definition gradient_at (ni na : nat) (x : point) : nat -> nat -> Qc := orbital_gradient ni na (p_T x) (p_V x) (p_D x) (p_D2 x).
Definition hessian_at (ni na : nat) (x : point) : nat -> nat -> Qc := orbital_hessian ni na (p_T x) (p_V x) (p_D x) (p_D2 x).
(** sum of the squares of [f] over the pairs of orbitals of different kind *)
Definition pairs_norm2 (ni na nv : nat) (f : nat -> nat -> Qc) : Qc :=
  let n := ni + na + nv in
  Sigma n (fun p => Sigma n (fun q => if rotatesb ni na nv p q then f p q * f p q else 0))%Qc.
(** [K'] is [K], or [K] scaled to have the largest absolute element [mx] if it had a larger one *)
Definition limited_rotation (mx : Qc) (ni na nv : nat) (K K' : nat -> nat -> Qc) : Prop :=
  ((forall p q, rotates ni na nv p q -> (Qcabs (K p q) <= mx)%Qc) /\ forall p q, rotates ni na nv p q -> K' p q = K p q) \/
  exists a b, rotates ni na nv a b /\ (mx < Qcabs (K a b))%Qc /\ (forall p q, rotates ni na nv p q -> (Qcabs (K p q) <= Qcabs (K a b))%Qc) /\
    forall p q, rotates ni na nv p q -> K' p q = (mx / Qcabs (K a b) * K p q)%Qc.
(** the antisymmetric matrix with the elements [s] at the pairs of orbitals of different kind *)
Definition skew_matrix (ni na nv : nat) (s : nat -> nat -> Qc) (p q : nat) : Qc :=
  if rotatesb ni na nv p q then s p q else if rotatesb ni na nv q p then (- s q p)%Qc else 0%Qc.
(** [K] is that combination of the last [nkeep] rotations tried since pass [start], with
    coefficients of sum one, for which the combined gradient is shortest *)
Definition extrapolated (ni na nv nkeep start : nat) (tr : nat -> point) (i : nat) (K : nat -> nat -> Qc) : Prop :=
  let n := ni + na + nv in let k := Nat.min nkeep (S i - start) in let m := S i - k in
  let comb (c : nat -> Qc) p q := Sigma k (fun l => c l * gradient_at ni na (tr (m + l)%nat) p q)%Qc in
  exists c, Sigma k c = 1%Qc /\ same2 n K (fun p q => Sigma k (fun l => c l * p_trial (tr (S (m + l))%nat) p q)%Qc) /\
    forall c', Sigma k c' = 1%Qc -> (pairs_norm2 ni na nv (comb c) <= pairs_norm2 ni na nv (comb c'))%Qc.
(** the [i]-th pass: a Newton step with the approximate Hessian, limited to [mx], is added to
    the accumulated rotation; from pass [start + 2] on the sum is extrapolated if [diis]; the
    orbitals change by the exponential of the difference *)
Definition orbital_pass (expm : nat -> list Qc -> res (list Qc)) (mx : Qc) (diis : bool) (start nkeep ni na nv : nat) (tr : nat -> point) (i : nat) : Prop :=
  let n := ni + na + nv in let x := tr i in let y := tr (S i) in
  (forall p q, rotates ni na nv p q -> hessian_at ni na x p q <> 0%Qc) /\
  (exists s, limited_rotation mx ni na nv (fun p q => - gradient_at ni na x p q / hessian_at ni na x p q)%Qc s /\
     same2 n (p_trial y) (fun p q => p_K x p q + skew_matrix ni na nv s p q)%Qc) /\
  (if diis && (start + 2 <=? i) then extrapolated ni na nv nkeep start tr i (p_K y) else same2 n (p_K y) (p_trial y)) /\
  exists M X, length M = n * n /\ same2 n (at2 M n) (fun p q => p_K x p q - p_K y p q)%Qc /\ expm n M = Ok X /\
    same2 n (p_U y) (product n (p_U x) (at2 X n)).
(** the test for convergence at the [i]-th point: the length of the gradient at the first,
    its root mean square at the others *)
Definition converged_at (root : Qc -> Qc) (tol : Qc) (ni na nv i : nat) (x : point) : Prop :=
  let g := root (gradient_norm2 ni na nv (p_T x) (p_V x) (p_D x) (p_D2 x)) in
  ((if i =? 0 then g else g / root (inject (rot_size ni na nv))) < tol)%Qc.
(** a point solved for the active space: [Post] holds between the active integrals, an energy
    and the densities, and the energy is the sum of that energy, of the core and the constant *)
Definition solved (ni na : nat) (E_core : Qc) (Post : list Qc -> list Qc -> Qc -> list Qc -> list Qc -> Prop) (x : point) : Prop :=
  exists TA VA e B1 B2, active_arrays ni na (p_T x) (p_V x) TA VA /\ Post TA VA e B1 B2 /\
    p_D x = at2 B1 na /\ p_D2 x = at4 B2 na /\ p_E x = (E_core + core_energy ni (p_T x) (p_V x) + e)%Qc.
(** the first point: orbitals and integrals as given, energy of its densities *)
Definition starts (ni na nv : nat) (E_core : Qc) (T : nat -> nat -> Qc) (V : nat -> nat -> nat -> nat -> Qc) (x : point) : Prop :=
  same2 (ni + na + nv) (p_U x) identity /\ same2 (ni + na + nv) (p_K x) (fun _ _ => 0%Qc) /\ p_T x = T /\ p_V x = V /\
  p_E x = (E_core + total_energy ni na T V (p_D x) (p_D2 x))%Qc.
(** the number of electrons of the density is right up to 10^-6 *)
Definition right_trace (na nalpha nbeta : nat) (D : nat -> nat -> Qc) : Prop :=
  (Qcabs (trace na D - inject nalpha - inject nbeta) <= Q2Qc (1 # 1000000))%Qc.
(** ** the problem and its answer *)
(** [no] orbitals, of which [ni] inactive, [na] active and [nv] virtual, with symmetric integrals *)
Definition orbital_problem (no ni na nv : nat) (T : list Qc) (LDT : nat) (V : list Qc) : Prop :=
  no = ni + na + nv /\ 0 < na /\ fits2 T LDT no no /\ fits4 V no no /\ symmetric2 no (at2 T LDT) /\ eightfold no (at4 V no).
(** room for the densities *)
Definition density_room (na : nat) (A1 A2 : list Qc) : Prop := na * na <= length A1 /\ na * na * (na * na) <= length A2.
(** there is something to rotate, or nothing is enough *)
Definition rotations_or_tolerance (root : Qc -> Qc) (tol : Qc) (ni na nv : nat) : Prop := 0 < rot_size ni na nv \/ (root 0 < tol)%Qc.
(** the densities the optimisation starts from: those passed, [A1] and [A2], if their number of
    electrons is right, else those of the active space *)
Definition starting_densities (ni na nalpha nbeta : nat) (T : nat -> nat -> Qc) (V : nat -> nat -> nat -> nat -> Qc)
    (Post : list Qc -> list Qc -> Qc -> list Qc -> list Qc -> Prop) (A1 A2 : list Qc) (x : point) : Prop :=
  (right_trace na nalpha nbeta (at2 A1 na) /\ p_D x = at2 A1 na /\ p_D2 x = at4 A2 na) \/
  (~ right_trace na nalpha nbeta (at2 A1 na) /\
   exists TA VA e C1 C2, active_arrays ni na T V TA VA /\ Post TA VA e C1 C2 /\ p_D x = at2 C1 na /\ p_D2 x = at4 C2 na).
(** all points have the integrals in orthogonally transformed orbitals, and all but the first
    are solved for the active space *)
Definition all_solved (ni na nv : nat) (E_core : Qc) (T : nat -> nat -> Qc) (V : nat -> nat -> nat -> nat -> Qc)
    (Post : list Qc -> list Qc -> Qc -> list Qc -> list Qc -> Prop) (tr : nat -> point) (it : nat) : Prop :=
  (forall i, i <= it -> rotated (ni + na + nv) (p_U (tr i)) T V (p_T (tr i)) (p_V (tr i))) /\
  forall i, 0 < i <= it -> solved ni na E_core Post (tr i).
(** the run ended at pass [it] of at most [most]: at the first point that passes the test, or
    not converged at the last *)
Definition stops_at (root : Qc -> Qc) (tol : Qc) (ni na nv most : nat) (tr : nat -> point) (it : nat) (conv : bool) : Prop :=
  it <= most /\ (forall i, i < it -> ~ converged_at root tol ni na nv i (tr i)) /\
  (if conv then converged_at root tol ni na nv it (tr it) else it = most /\ ~ converged_at root tol ni na nv it (tr it)) /\
  (0 < it -> root (inject (rot_size ni na nv)) <> 0%Qc).
(** what is handed back is the last point *)
Definition handed_back (na : nat) (x : point) (E : Qc) (B1 B2 : list Qc) : Prop := p_E x = E /\ p_D x = at2 B1 na /\ p_D2 x = at4 B2 na.

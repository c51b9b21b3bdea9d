(** Vocabulary for dense arrays, independent of the code. *)
From Coq Require Import QArith Qcanon Qcabs.
From Verif Require Import Base Sums.
Local Open Scope nat_scope.

(** sum over 0, ..., n-1 *)
Definition Sigma (n : nat) (f : nat -> Qc) : Qc := sum (seq 0 n) f.
(** element (i, j) of a column-major matrix, (i, j, k, l) of a four-index array
    with leading dimension [LD] in every index *)
Definition at2 (A : list Qc) (LD i j : nat) : Qc := nth (i + j * LD) A 0%Qc.
Definition at4 (A : list Qc) (LD i j k l : nat) : Qc := nth (i + j * LD + k * LD * LD + l * LD * LD * LD) A 0%Qc.
(** the array has room for an [n] x [m] matrix; for four indices below [n] *)
Definition fits2 (A : list Qc) (LD n m : nat) : Prop := n <= LD /\ forall i j, i < n -> j < m -> i + j * LD < length A.
Definition fits4 (A : list Qc) (LD n : nat) : Prop := n <= LD /\ forall i j k l, i < n -> j < n -> k < n -> l < n ->
  i + j * LD + k * LD * LD + l * LD * LD * LD < length A.
(** [A'] has the elements [f i j] in its [n] x [m] matrix and is otherwise like [A] *)
Definition filled2 (A A' : list Qc) (LD n m : nat) (f : nat -> nat -> Qc) : Prop :=
  length A' = length A /\ (forall i j, i < n -> j < m -> at2 A' LD i j = f i j) /\
  forall p, (forall i j, i < n -> j < m -> p <> i + j * LD) -> nth p A' 0%Qc = nth p A 0%Qc.
Definition filled4 (A A' : list Qc) (LD n : nat) (f : nat -> nat -> nat -> nat -> Qc) : Prop :=
  length A' = length A /\ (forall i j k l, i < n -> j < n -> k < n -> l < n -> at4 A' LD i j k l = f i j k l) /\
  forall p, (forall i j k l, i < n -> j < n -> k < n -> l < n -> p <> i + j * LD + k * LD * LD + l * LD * LD * LD) ->
    nth p A' 0%Qc = nth p A 0%Qc.
(** C^T X C and the fourfold contraction of X with C *)
Definition congruence2 (n : nat) (C X : nat -> nat -> Qc) (p q : nat) : Qc :=
  Sigma n (fun i => Sigma n (fun j => C i p * C j q * X i j)%Qc).
Definition congruence4 (n : nat) (C : nat -> nat -> Qc) (X : nat -> nat -> nat -> nat -> Qc) (p q r s : nat) : Qc :=
  Sigma n (fun i => Sigma n (fun j => Sigma n (fun k => Sigma n (fun l => C i p * C j q * C k r * C l s * X i j k l)%Qc))).
(** the product of two matrices *)
Definition product (n : nat) (A B : nat -> nat -> Qc) (i j : nat) : Qc := Sigma n (fun l => A i l * B l j)%Qc.

(** ** Fock matrices, for inactive orbitals 0..ni-1 and active orbitals ni..ni+na-1 *)
Definition two : Qc := (1 + 1)%Qc.
Definition inactive_fock (ni : nat) (T : nat -> nat -> Qc) (V : nat -> nat -> nat -> nat -> Qc) (p q : nat) : Qc :=
  (T p q + Sigma ni (fun i => two * V p q i i - V p i i q))%Qc.
Definition active_fock (ni na : nat) (V : nat -> nat -> nat -> nat -> Qc) (D : nat -> nat -> Qc) (p q : nat) : Qc :=
  Sigma na (fun v => Sigma na (fun w => D v w * (V p q (v + ni)%nat (w + ni)%nat - half * V p (w + ni)%nat (v + ni)%nat q))%Qc).
Definition q_matrix (ni na : nat) (V D2 : nat -> nat -> nat -> nat -> Qc) (v p : nat) : Qc :=
  (two * Sigma na (fun w => Sigma na (fun x => Sigma na (fun y => D2 v w x y * V p (w + ni)%nat (x + ni)%nat (y + ni)%nat))))%Qc.
(** row [r] < ni + na of the generalised Fock matrix *)
Definition generalized_fock (ni na : nat) (T : nat -> nat -> Qc) (V : nat -> nat -> nat -> nat -> Qc)
    (D : nat -> nat -> Qc) (D2 : nat -> nat -> nat -> nat -> Qc) (r p : nat) : Qc :=
  if r <? ni then (two * (inactive_fock ni T V p r + active_fock ni na V D p r))%Qc
  else (Sigma na (fun y => inactive_fock ni T V p (y + ni)%nat * D y (r - ni)%nat) + q_matrix ni na V D2 (r - ni)%nat p)%Qc.
(** the energy of inactive orbitals that are doubly occupied; the energy of the
    active electrons in their field, from one- and two-body density matrices *)
Definition core_energy (ni : nat) (T : nat -> nat -> Qc) (V : nat -> nat -> nat -> nat -> Qc) : Qc :=
  (Sigma ni (fun i => two * T i i) + Sigma ni (fun i => Sigma ni (fun j => two * V i i j j - V i j j i)))%Qc.
Definition valence_energy (na : nat) (T : nat -> nat -> Qc) (V : nat -> nat -> nat -> nat -> Qc)
    (D : nat -> nat -> Qc) (D2 : nat -> nat -> nat -> nat -> Qc) : Qc :=
  (Sigma na (fun x => Sigma na (fun y => D x y * T x y)) +
   Sigma na (fun v => Sigma na (fun w => Sigma na (fun x => Sigma na (fun y => D2 v w x y * V v w x y)))))%Qc.
Definition shift2 (k : nat) (T : nat -> nat -> Qc) (p q : nat) : Qc := T (p + k) (q + k).
Definition shift4 (k : nat) (V : nat -> nat -> nat -> nat -> Qc) (p q r s : nat) : Qc := V (p + k) (q + k) (r + k) (s + k).
(** the energy with integrals [T], [V] and active density matrices [D], [D2] *)
Definition total_energy (ni na : nat) (T : nat -> nat -> Qc) (V : nat -> nat -> nat -> nat -> Qc)
    (D : nat -> nat -> Qc) (D2 : nat -> nat -> nat -> nat -> Qc) : Qc :=
  (core_energy ni T V + valence_energy na (shift2 ni (inactive_fock ni T V)) (shift4 ni V) D D2)%Qc.
(** (pq|rs) = (rs|pq) for all orbitals below [n]; all eightfold symmetries *)
Definition pair_symmetric (n : nat) (V : nat -> nat -> nat -> nat -> Qc) : Prop :=
  forall p q r s, p < n -> q < n -> r < n -> s < n -> V p q r s = V r s p q.
Definition symmetric2 (n : nat) (T : nat -> nat -> Qc) : Prop := forall p q, p < n -> q < n -> T p q = T q p.

(** ** orbital rotations between ni inactive, na active and nv virtual orbitals *)
(** [p], [q] is a pair of orbitals of different kind, the higher kind first *)
Definition rotates (ni na nv p q : nat) : Prop :=
  (q < ni /\ ni <= p < ni + na + nv) \/ (ni <= q < ni + na /\ ni + na <= p < ni + na + nv).
Definition rotatesb (ni na nv p q : nat) : bool :=
  (q <? ni) && (ni <=? p) && (p <? ni + na + nv) || (ni <=? q) && (q <? ni + na) && (ni + na <=? p) && (p <? ni + na + nv).
(** the place of that pair in a packed parameter vector: virtual-inactive,
    virtual-active, active-inactive, the higher orbital running fastest *)
Definition rot_index (ni na nv p q : nat) : nat :=
  if q <? ni then (if p <? ni + na then nv * ni + nv * na + ((p - ni) + q * na) else (p - ni - na) + q * nv)
  else nv * ni + ((p - ni - na) + (q - ni) * nv).
Definition rot_size (ni na nv : nat) : nat := nv * ni + nv * na + na * ni.
(** the antisymmetric matrix of a packed vector *)
Definition rot_matrix (ni na nv : nat) (k : list Qc) (p q : nat) : Qc :=
  if rotatesb ni na nv p q then nth (rot_index ni na nv p q) k 0%Qc
  else if rotatesb ni na nv q p then (- nth (rot_index ni na nv q p) k 0)%Qc else 0%Qc.

(** the approximate diagonal of the orbital Hessian at the pair (p, q) *)
Definition diagonal_hessian (ni na : nat) (FI FA F D : nat -> nat -> Qc) (p q : nat) : Qc :=
  let fia x := (FI x x + FA x x)%Qc in
  if q <? ni then
    if p <? ni + na then (two * D (p - ni)%nat (p - ni)%nat * fia q + two * two * (fia p - fia q) - two * F p p)%Qc
    else (two * two * (fia p - fia q))%Qc
  else (two * D (q - ni)%nat (q - ni)%nat * fia p - two * F q q)%Qc.

(** ** derivatives along an orbital rotation *)
(** first-order change of the integrals under the rotation exp(-K), K antisymmetric *)
Definition one_index2 (n : nat) (K T : nat -> nat -> Qc) (p q : nat) : Qc :=
  Sigma n (fun o => K p o * T o q + K q o * T p o)%Qc.
Definition one_index4 (n : nat) (K : nat -> nat -> Qc) (V : nat -> nat -> nat -> nat -> Qc) (p q r s : nat) : Qc :=
  Sigma n (fun o => K p o * V o q r s + K q o * V p o r s + K r o * V p q o s + K s o * V p q r o)%Qc.
Definition eightfold (n : nat) (V : nat -> nat -> nat -> nat -> Qc) : Prop :=
  forall p q r s, p < n -> q < n -> r < n -> s < n -> V p q r s = V r s p q /\ V p q r s = V q p r s.
(** f(t) = a + t b + t^2 c + O(t^3) *)
Definition expands (f : Qc -> Qc) (a b c : Qc) : Prop :=
  exists M, forall t, (Qcabs t <= 1)%Qc -> (Qcabs (f t - (a + t * b + t * t * c)) <= M * Qcabs (t * t * t))%Qc.
(** U(t) = exp(-t K) up to terms of third order *)
Definition rotation_family (n : nat) (U : Qc -> nat -> nat -> Qc) (K : nat -> nat -> Qc) : Prop :=
  forall i p, i < n -> p < n -> expands (fun t => U t i p) (if i =? p then 1%Qc else 0%Qc) (- K i p)%Qc (half * product n K K i p)%Qc.
(** the symmetry of the two-body density matrix of a real wave function *)
Definition fourfold (n : nat) (D : nat -> nat -> nat -> nat -> Qc) : Prop :=
  forall p q r s, p < n -> q < n -> r < n -> s < n -> D p q r s = D r s p q /\ D p q r s = D q p s r.
(** scalar product of the first [n] elements *)
Definition dot (n : nat) (a b : list Qc) : Qc := Sigma n (fun x => nth x a 0 * nth x b 0)%Qc.

(** ** second-order perturbation theory with [no] doubly occupied orbitals *)
(** the orbital energies are the diagonal of the Fock matrix *)
Definition orbital_energy (no : nat) (T : nat -> nat -> Qc) (V : nat -> nat -> nat -> nat -> Qc) (p : nat) : Qc := inactive_fock no T V p p.
Definition denominator (no : nat) (eps : nat -> Qc) (i j a b : nat) : Qc := (eps i + eps j - eps (a + no)%nat - eps (b + no)%nat)%Qc.
(** (ia|jb) / (e_i + e_j - e_a - e_b) *)
Definition amplitude (no : nat) (V : nat -> nat -> nat -> nat -> Qc) (eps : nat -> Qc) (i j a b : nat) : Qc :=
  (V i (a + no)%nat j (b + no)%nat / denominator no eps i j a b)%Qc.
Definition correlation_energy (no nv : nat) (V t : nat -> nat -> nat -> nat -> Qc) : Qc :=
  Sigma no (fun i => Sigma no (fun j => Sigma nv (fun a => Sigma nv (fun b =>
    t i j a b * (two * V (a + no)%nat i (b + no)%nat j - V (a + no)%nat j (b + no)%nat i)))))%Qc.
Definition occupied_block (no nv : nat) (t : nat -> nat -> nat -> nat -> Qc) (i j : nat) : Qc :=
  ((if i =? j then two else 0) - two * Sigma no (fun k => Sigma nv (fun a => Sigma nv (fun b => t i k a b * (two * t j k a b - t j k b a)))))%Qc.
Definition virtual_block (no nv : nat) (t : nat -> nat -> nat -> nat -> Qc) (a b : nat) : Qc :=
  (two * Sigma no (fun i => Sigma no (fun j => Sigma nv (fun c => t i j c a * (two * t i j c b - t i j b c)))))%Qc.
(** the relaxed part is ignored: the occupied-virtual blocks are zero *)
Definition mp2_density (no nv : nat) (t : nat -> nat -> nat -> nat -> Qc) (p q : nat) : Qc :=
  if (p <? no) && (q <? no) then occupied_block no nv t p q
  else if (no <=? p) && (no <=? q) then virtual_block no nv t (p - no) (q - no) else 0%Qc.

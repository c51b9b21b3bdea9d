(** Vocabulary for growth with natural orbitals (C61), independent of the code. *)
From Coq Require Import QArith Qcanon.
From Verif Require Import Base SD Spec FockSpec SlaterCondon Sums DenseSpec DavSpec McscfSpec CasciSpec Nondet Ham Asci AsciSpec.
Local Open Scope nat_scope.

(** contract of the symmetric eigensolver: all eigenpairs, orthonormal vectors as the columns
    of a packed array, eigenvalues in ascending order *)
Definition all_eigenpairs (syev : nat -> list Qc -> res (list Qc * list Qc)) : Prop :=
  forall k M w C, syev k M = Ok (w, C) -> length M = k * k -> symmetric2 k (at2 M k) ->
    length w = k /\ length C = k * k /\ orthogonal k (at2 C k) /\
    (forall i j, i < k -> j < k -> (Sigma k (fun l => at2 M k i l * at2 C k l j) = nth j w 0 * at2 C k i j)%Qc) /\
    forall i j, i <= j -> j < k -> (nth i w 0 <= nth j w 0)%Qc.
(** the columns of [U] are natural orbitals of the density [D] with occupation numbers [occ], in
    descending order *)
Definition natural (n : nat) (D : nat -> nat -> Qc) (occ : nat -> Qc) (U : nat -> nat -> Qc) : Prop :=
  orthogonal n U /\
  (forall p q, p < n -> q < n -> congruence2 n U D p q = if p =? q then occ p else 0%Qc) /\
  forall i j, i <= j -> j < n -> (occ j <= occ i)%Qc.
(** the integrals held in the packed arrays [TV] *)
Definition held (n : nat) (TV : list Qc * list Qc) : ints := mk_ints n (at2 (fst TV) n) (at4 (snd TV) n).
(** the diagonaliser returns one coefficient per determinant *)
Definition one_each (dg : ints -> diag) : Prop := forall h dets E X, dg h dets (Ok (E, X)) -> length X = length dets.
(** the rotation after an iteration that found the wave function [m] with the integrals [TV]:
    the integrals become those in the natural orbitals of [m], and the coefficients [X] are
    computed again with them *)
Definition natural_rotation (W n : nat) (dg : ints -> diag) (m : wfn_state) (TV TV' : list Qc * list Qc) (X : list Qc) : Prop :=
  exists g G occ U E', densities_of W n (combine (wfn_dets m) (snd m)) g G /\ natural n g occ U /\
    rotated n U (at2 (fst TV) n) (at4 (snd TV) n) (at2 (fst TV') n) (at4 (snd TV') n) /\
    dg (held n TV') (wfn_dets m) (Ok (E', X)).
(** one pass of the growth: an iteration to [target] determinants, then possibly a rotation.
    The energy is always that of the iteration *)
Definition grow_pass (W n : nat) (dbg : bool) (st : settings) (rot : bool) (from : nat) (dg : ints -> diag)
    (a b : wfn_state * (list Qc * list Qc)) : Prop :=
  let target := Nat.min (Nat.max (ntdets_min st) (wfn_size (fst a) * grow_factor st)) (ntdets_max st) in
  exists m, asci_iter dbg W st (held n (snd a)) (dg (held n (snd a))) target (fst a) (Ok m) /\
    dg (held n (snd a)) (wfn_dets m) (Ok (wfn_energy m, snd m)) /\
    wfn_size (fst a) < target /\ wfn_size m = target /\
    wfn_dets (fst b) = wfn_dets m /\ wfn_energy (fst b) = wfn_energy m /\
    if rot && (from <=? target) then natural_rotation W n dg m (snd a) (snd b) (snd (fst b))
    else snd b = snd a /\ snd (fst b) = snd m.

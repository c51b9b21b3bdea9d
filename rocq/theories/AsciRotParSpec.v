(** Vocabulary for growth with natural orbitals on several ranks (C72). *)
From Coq Require Import QArith Qcanon.
From Verif Require Import Base Nondet SD Spec Sums FockSpec SlaterCondon Ham DenseSpec DiisSpec DavSpec McscfSpec CasciSpec Asci AsciSpec AsciPar AsciParSpec AsciRotSpec.
Local Open Scope nat_scope.

(** [X]: an approximate eigenvector of the Hamiltonian of [dets], one coefficient for each *)
Definition rediagonalised (root : Qc -> Qc) (W : nat) (h : ints) (thr tol : Qc) (dets : list N) (X : list Qc) : Prop :=
  length X = length dets /\ exists E, (root (residual2 (length dets) (ci_matrix W h thr dets) E X) < tol)%Qc.
(** the rotation after an iteration that found the wave function [m] with the integrals [TV]:
    the integrals become those in the natural orbitals of [m], and the coefficients [X] are
    computed again with them *)
Definition natural_rotation_mpi (root : Qc -> Qc) (W n : nat) (thr tol : Qc) (m : wfn_state) (TV TV' : list Qc * list Qc) (X : list Qc) : Prop :=
  (exists g G occ U, densities_of W n (combine (wfn_dets m) (snd m)) g G /\ natural n g occ U /\
    rotated n U (at2 (fst TV) n) (at4 (snd TV) n) (at2 (fst TV') n) (at4 (snd TV') n)) /\
  rediagonalised root W (held n TV') thr tol (wfn_dets m) X.
(** one pass of the growth: an iteration to [target] determinants, then possibly a rotation.
    The energy is always that of the iteration *)
Definition grow_pass_mpi (root : Qc -> Qc) (W n : nat) (thr tol : Qc) (st : settings) (rot : bool) (from : nat)
  (a b : wfn_state * (list Qc * list Qc)) : Prop :=
  let target := Nat.min (Nat.max (ntdets_min st) (wfn_size (fst a) * grow_factor st)) (ntdets_max st) in
  exists m, passed root W (held n (snd a)) (ncdets_max st) thr tol target (fst a) m /\
    wfn_size (fst a) < ntdets_max st /\ wfn_size m = target /\
    wfn_dets (fst b) = wfn_dets m /\ wfn_energy (fst b) = wfn_energy m /\
    if rot && (from <=? target) then natural_rotation_mpi root W n thr tol m (snd a) (snd b) (snd (fst b))
    else snd b = snd a /\ snd (fst b) = snd m.

(** Orbital rotations and full configuration interaction: when two matrices have the same
    states, and what it means to be the energy of a full-CI wave function. *)
From Coq Require Import QArith Qcanon.
From Verif Require Import Base SD Spec FockSpec SlaterCondon Ham DenseSpec DiisSpec DavSpec McscfSpec.
Local Open Scope nat_scope.

(** B is A in another orthonormal basis *)
Definition similar (n : nat) (A B : nat -> nat -> Qc) : Prop := exists Q, orthogonal n Q /\ same2 n B (congruence2 n Q A).
(** to every vector Y there is a vector Z of the same length that is in A what Y is in B: the
    same energy, and for every number the same residual *)
Definition same_states (n : nat) (A B : nat -> nat -> Qc) : Prop :=
  forall Y, exists Z, length Z = n /\ dot n Z Z = dot n Y Y /\ expectation n A Z = expectation n B Y /\
    forall lam, residual2 n A lam Z = residual2 n B lam Y.
Definition eigenvalue (n : nat) (A : nat -> nat -> Qc) (lam : Qc) : Prop :=
  exists x k, k < n /\ nth k x 0%Qc <> 0%Qc /\ forall i, i < n -> matvec n A x i = (lam * nth i x 0)%Qc.
(** [E] is the energy of a normalised combination of all determinants of [na] and [nb]
    electrons in the [no] orbitals with the integrals [T], [V] *)
Definition full_state (W no na nb : nat) (T : nat -> nat -> Qc) (V : nat -> nat -> nat -> nat -> Qc) (E : Qc) : Prop :=
  exists D Z, whole_space W no na nb D /\ length Z = length D /\ dot (length D) Z Z = 1%Qc /\
    expectation (length D) (ci_matrix W (mk_ints no T V) 0%Qc D) Z = E.

(** Freezing orbitals: the active-space determinant [b] stands for the determinant of all
    orbitals in which the lowest [ni] orbitals are doubly occupied and the others are
    occupied as in [b]. [b] has [W] bits, the other [W2]. *)
From Coq Require Import QArith Qcanon.
From Verif Require Import Base SD Spec FockSpec SlaterCondon Ham DenseSpec DiisSpec DavSpec McscfSpec.
Local Open Scope nat_scope.

Definition freeze_string (ni : nat) (s : N) : N := (2 ^ N.of_nat ni - 1 + 2 ^ N.of_nat ni * s)%N.
Definition freeze (W W2 ni : nat) (b : N) : N :=
  (freeze_string ni (alpha W b) + 2 ^ N.of_nat (W2 / 2) * freeze_string ni (beta W b))%N.
(** (pq|rs) = (rs|pq): all that is asked of the two-electron integrals *)
Definition exchange_symmetric (n : nat) (V : nat -> nat -> nat -> nat -> Qc) : Prop :=
  forall p q r s, p < n -> q < n -> r < n -> s < n -> V p q r s = V r s p q.
(** [E] is the energy of a normalised wave function of all electrons in which the lowest [ni]
    orbitals are doubly occupied and those from [nt] on are empty; and it lies above the
    spectrum of the Hamiltonian of all orbitals *)
Definition frozen_state (W no ni nt ne_alpha ne_beta : nat) (T : nat -> nat -> Qc) (V : nat -> nat -> nat -> nat -> Qc) (E : Qc) : Prop :=
  (exists dets Y, NoDup dets /\ length Y = length dets /\
     (forall d, In d dets -> in_space W no d /\ size_is (alpha W d) ne_alpha /\ size_is (beta W d) ne_beta /\
        forall s p, (p < ni -> tb (str W s d) p = true) /\ (nt <= p -> tb (str W s d) p = false)) /\
     dot (length dets) Y Y = 1%Qc /\ expectation (length dets) (ci_matrix W (mk_ints no T V) 0%Qc dets) Y = E) /\
  forall D b, whole_space W no ne_alpha ne_beta D -> spectrum_above (length D) (ci_matrix W (mk_ints no T V) 0%Qc D) b -> (b <= E)%Qc.

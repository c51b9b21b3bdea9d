(** Vocabulary for the density matrices of a CI wave function (C56, C57), independent of the code. *)
From Coq Require Import QArith Qcanon.
From Verif Require Import Base SD Spec FockSpec SlaterCondon Ham Sums DenseSpec DavSpec McscfSpec.
Local Open Scope nat_scope.

(** a wave function: determinants with coefficients. Pairs of determinants whose coefficients
    have a product of at most 10^-16 do not count *)
Definition over_pairs (w : list (N * Qc)) (f : N -> N -> Qc) : Qc :=
  sum w (fun b => sum w (fun k =>
    if qlt (Q2Qc (1 # 10000000000000000)) (Qcabs (snd b * snd k)) then (snd b * snd k * f (fst b) (fst k))%Qc else 0%Qc)).
(** [g] is its one-body density matrix <a+_p a_q>, and [g] with [G] gives the energy for all
    integrals; both have the symmetry of real wave functions *)
Definition densities_of (W n : nat) (w : list (N * Qc)) (g : nat -> nat -> Qc) (G : nat -> nat -> nat -> nat -> Qc) : Prop :=
  (forall p q, p < n -> q < n -> g p q = over_pairs w (fun b k => sum spins (fun s => braket b [Cre (so W s p); Ann (so W s q)] k))) /\
  (forall T V, eri_symmetric n V -> contract n T g V G = over_pairs w (ham W n T V)) /\
  symmetric2 n g /\ fourfold n G.
(** the densities in the arrays [B1], [B2] are those of a vector [Y] over all determinants that
    solves the eigenvalue problem of the integrals [TA], [VA] with the energy [e] up to [tol] *)
Definition ci_solution (root : Qc -> Qc) (W nalpha nbeta n : nat) (thr tol : Qc) (TA VA : list Qc) (e : Qc) (B1 B2 : list Qc) : Prop :=
  exists dets Y, whole_space W n nalpha nbeta dets /\ length Y = length dets /\
    (root (residual2 (length dets) (ci_matrix W (mk_ints n (at2 TA n) (at4 VA n)) thr dets) e Y) < tol)%Qc /\
    densities_of W n (combine dets Y) (at2 B1 n) (at4 B2 n).
(** ... where moreover [Y] has length one and the energy [e], not below the spectrum *)
Definition ci_ground (root : Qc -> Qc) (W nalpha nbeta n : nat) (thr tol : Qc) (TA VA : list Qc) (e : Qc) (B1 B2 : list Qc) : Prop :=
  exists dets Y, whole_space W n nalpha nbeta dets /\ length Y = length dets /\
    (root (residual2 (length dets) (ci_matrix W (mk_ints n (at2 TA n) (at4 VA n)) thr dets) e Y) < tol)%Qc /\
    dot (length dets) Y Y = 1%Qc /\ expectation (length dets) (ci_matrix W (mk_ints n (at2 TA n) (at4 VA n)) thr dets) Y = e /\
    (forall b, spectrum_above (length dets) (ci_matrix W (mk_ints n (at2 TA n) (at4 VA n)) thr dets) b -> (b <= e)%Qc) /\
    densities_of W n (combine dets Y) (at2 B1 n) (at4 B2 n).

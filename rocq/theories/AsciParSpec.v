(** Vocabulary for the iteration on several ranks (C62). *)
From Coq Require Import QArith Qcanon.
From Verif Require Import Base Nondet SD Spec Sums FockSpec Ham Davidson DenseSpec DiisSpec DavSpec Asci AsciSpec AsciPar.
Local Open Scope nat_scope.

(** [core]: the [k] determinants of the wave function with the largest coefficients, or all *)
Definition leading (k : nat) (s : wfn_state) (core : list N) : Prop :=
  length core = Nat.min k (wfn_size s) /\ NoDup core /\ incl core (wfn_dets s) /\
  forall i j, i < wfn_size s -> j < wfn_size s -> In (nth i (wfn_dets s) 0%N) core -> ~ In (nth j (wfn_dets s) 0%N) core ->
    (Qcabs (nth j (snd s) 0) <= Qcabs (nth i (snd s) 0))%Qc.
(** the new determinants followed by [core]; every new one is a single or double excitation
    of one of [core] *)
Definition extends (W : nat) (h : ints) (core dets : list N) : Prop :=
  exists sel, dets = sel ++ core /\ forall t, In t sel -> exists D, In D core /\ linked W h false D t.
(** one pass: at most [m] determinants, one coefficient for each, and an approximate
    eigenpair of their Hamiltonian *)
Definition passed (root : Qc -> Qc) (W : nat) (h : ints) (k : nat) (thr tol : Qc) (m : nat) (s s' : wfn_state) : Prop :=
  (exists core, leading k s core /\ extends W h core (wfn_dets s')) /\
  wfn_size s' <= m /\ length (snd s') = wfn_size s' /\
  (root (residual2 (wfn_size s') (ci_matrix W h thr (wfn_dets s')) (wfn_energy s') (snd s')) < tol)%Qc.
(** the coefficients are of length one and the energy is theirs, at or below every diagonal
    element and at or above every lower bound of the spectrum *)
Definition variational (W : nat) (h : ints) (thr : Qc) (s : wfn_state) : Prop :=
  let H := ci_matrix W h thr (wfn_dets s) in
  dot (wfn_size s) (snd s) (snd s) = 1%Qc /\ expectation (wfn_size s) H (snd s) = wfn_energy s /\
  (forall i, i < wfn_size s -> (wfn_energy s <= H i i)%Qc) /\
  forall b, spectrum_above (wfn_size s) H b -> (b <= wfn_energy s)%Qc.

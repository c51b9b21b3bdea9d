(** Specification vocabulary for the ASCI search, independent of the code. *)
From Coq Require Import QArith Qcanon.
From Verif Require Import Base Spec Sums FockSpec.
Local Open Scope nat_scope.

(** the values paired with state [s] in a list of (state, value) pairs *)
Definition vals (s : N) (l : list (N * Qc)) : list Qc :=
  map snd (filter (fun p => (fst p =? s)%N) l).
(** their sum *)
Definition score (l : list (N * Qc)) (s : N) : Qc := sum (vals s l) (fun x => x).

(** ** candidate scores of the ASCI search *)
From Verif Require Import Ham Asci.

Section SCORES.
  Variables (W : nat) (h : ints) (tol : Qc) (singles_only : bool) (E0 : Qc).
  Notation Hm := (ham W (norb h) (T_pq h) (V_pqrs h)).

  (** [t] lies in the orbital space and is a spin-conserving single (or, unless
      [singles_only], double) excitation of [D] *)
  Definition linked (D t : N) : Prop :=
    in_space W (norb h) t /\ (spin_moves W 1 D t \/ (singles_only = false /\ spin_moves W 2 D t)).
  (** and the matrix element between them is not screened out *)
  Definition contributes (D t : N) : Prop := linked D t /\ (tol <= Qcabs (Hm t D))%Qc.
  (** first-order perturbation coefficient *)
  Definition pt_coeff (c : Qc) (D t : N) : Qc := (c * (Hm t D / (E0 - Hm t t)))%Qc.

  (** [x] is the sum over the core determinants contributing to [t] *)
  Definition is_score (cdets : list N) (C : list Qc) (t : N) (x : Qc) : Prop :=
    exists l, NoDup l /\
      (forall i, In i l <-> i < length cdets /\ contributes (nth i cdets 0%N) t) /\
      x = sum l (fun i => pt_coeff (nth i C 0%Qc) (nth i cdets 0%N) t).

  (** no contributing determinant has energy E0 *)
  Definition no_resonance (cdets : list N) : Prop :=
    forall D t, In D cdets -> contributes D t -> E0 <> Hm t t.

  (** at most [m] (core determinant, contribution) pairs *)
  Definition at_most_pairs (cdets : list N) (m : nat) : Prop :=
    forall l : list (nat * N), NoDup l ->
      (forall i t, In (i, t) l -> i < length cdets /\ contributes (nth i cdets 0%N) t) -> length l <= m.
End SCORES.

(** ** growth and refinement *)

(** [path R l]: consecutive elements of [l] are related by [R] *)
Fixpoint path {A} (R : A -> A -> Prop) (l : list A) : Prop :=
  match l with
  | x :: ((y :: _) as r) => R x y /\ path R r
  | _ => True
  end.
(** number of determinants of a wavefunction *)
Definition wfn_size (s : wfn_state) : nat := length (snd (fst s)).
Definition wfn_dets (s : wfn_state) : list N := snd (fst s).
Definition wfn_energy (s : wfn_state) : Qc := fst (fst s).
(** the determinants are distinct, lie in the orbital space and have [na] alpha
    and [nb] beta electrons *)
Definition valid_dets (W norb na nb : nat) (l : list N) : Prop :=
  NoDup l /\ forall D, In D l -> in_space W norb D /\ size_is (alpha W D) na /\ size_is (beta W D) nb.

(** Specification vocabulary for the constraint-based search. *)
From Verif Require Import Base Bits Spec Constraint.

(** A constraint as the library builds them: at least three orbitals [con_C]
    below [norb], [con_min] the lowest of them, [con_B] all orbitals below it. *)
Definition valid_con (norb : nat) (c : constraint) : Prop :=
  wf norb (con_C c) /\ tb (con_C c) (con_min c) = true /\
  (forall i, i < con_min c -> tb (con_C c) i = false) /\
  (forall i, tb (con_B c) i = true <-> i < con_min c) /\
  exists k, 3 <= k /\ size_is (con_C c) k.

(** The highest occupied orbitals of [x] are those of the constraint: at or
    above its lowest orbital, [x] occupies its orbitals and no others. *)
Definition meets (c : constraint) (x : N) : Prop :=
  forall i, con_min c <= i -> tb x i = tb (con_C c) i.

(** exactly one constraint of the list is met by [x] (and it is listed once) *)
Definition meets_once (cs : list constraint) (x : N) : Prop :=
  exists l1 c l2, cs = l1 ++ c :: l2 /\ meets c x /\ forall c', In c' (l1 ++ l2) -> ~ meets c' x.

(** [x] arises from one of the strings by moving at most two electrons *)
Definition near (alphas : list N) (x : N) : Prop :=
  exists al k, In al alphas /\ k <= 2 /\ moves k al x.

(** ** candidate scores of the constraint-based search *)
From Coq Require Import QArith Qcanon.
From Verif Require Import Sums FockSpec Ham Asci AsciSpec.
Local Open Scope nat_scope.
Section SCORES_C.
  Variables (W : nat) (h : ints) (tol E0 : Qc).
  Notation Hm := (ham W (norb h) (T_pq h) (V_pqrs h)).

  (** [t] is a single or double excitation of core determinant [D] (coefficient
      [c]) that passes the screening of the constraint-based search: the matrix
      element alone if the alpha strings agree, times [c] otherwise *)
  Definition contributes_c (c : Qc) (D t : N) : Prop :=
    linked W h false D t /\
    (tol <= Qcabs (if (alpha W t =? alpha W D)%N then Hm t D else c * Hm t D))%Qc.
  (** core determinant [i] contributes to [t] *)
  Definition contributes_at (cdets : list N) (C : list Qc) (i : nat) (t : N) : Prop :=
    i < length cdets /\ contributes_c (nth i C 0%Qc) (nth i cdets 0%N) t.
  (** [x] is the sum over the core determinants contributing to [t] *)
  Definition is_score_c (cdets : list N) (C : list Qc) (t : N) (x : Qc) : Prop :=
    exists l, NoDup l /\ (forall i, In i l <-> contributes_at cdets C i t) /\
      x = sum l (fun i => pt_coeff W h E0 (nth i C 0%Qc) (nth i cdets 0%N) t).
  Definition no_resonance_c (cdets : list N) (C : list Qc) : Prop :=
    forall i t, contributes_at cdets C i t -> E0 <> Hm t t.
  Definition at_most_pairs_c (cdets : list N) (C : list Qc) (m : nat) : Prop :=
    forall l : list (nat * N), NoDup l ->
      (forall i t, In (i, t) l -> contributes_at cdets C i t) -> length l <= m.
End SCORES_C.

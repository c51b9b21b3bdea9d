(** Specification vocabulary for the search on several ranks. *)
From Coq Require Import QArith Qcanon.
From Verif Require Import Base Spec Sums FockSpec Ham Asci AsciSpec ConstraintSpec.
Local Open Scope nat_scope.

(** [t] is not a core determinant and has the non-zero score [x] *)
Definition candidate (W : nat) (h : ints) (tol E0 : Qc) (cdets : list N) (C : list Qc) (t : N) (x : Qc) : Prop :=
  is_score_c W h tol E0 cdets C t x /\ x <> 0%Qc /\ ~ In t cdets.
(** there are at least [k] states satisfying [P] *)
Definition at_least (k : nat) (P : N -> Prop) : Prop :=
  exists l, NoDup l /\ length l = k /\ forall t, In t l -> P t.

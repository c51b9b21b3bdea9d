(** Specification vocabulary for distributed selection. *)
From Verif Require Import Base.

(** [lt] orders the elements, possibly with ties *)
Definition weak_order {A} (lt : A -> A -> bool) : Prop :=
  (forall x y, lt x y = true -> lt y x = false) /\
  (forall x y z, lt y x = false -> lt z y = false -> lt z x = false).
(** [v] is in the list; fewer than [k] elements come before it and at least [k]
    do not come after it *)
Definition is_kth {A} (lt : A -> A -> bool) (k : nat) (l : list A) (v : A) : Prop :=
  In v l /\ length (filter (fun x => lt x v) l) < k /\ k <= length (filter (fun x => negb (lt v x)) l).

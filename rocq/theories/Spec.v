(** Specification vocabulary, written without reference to the code.
    A determinant of width W has its alpha orbitals in bits [0, W/2) and its
    beta orbitals in bits [W/2, W). *)
From Coq Require Import Sorting.Sorted QArith Qcanon.
From Verif Require Import Base.
Local Open Scope nat_scope.

(** [size_is x n]: exactly [n] bits of [x] are set. *)
Definition size_is (x : N) (n : nat) : Prop :=
  exists l, NoDup l /\ (forall i, In i l <-> tb x i = true) /\ length l = n.

(** [moves k s t]: [t] arises from [s] by moving exactly [k] electrons: k
    orbitals occupied in s are empty in t, and k empty ones are occupied. *)
Definition moves (k : nat) (s t : N) : Prop :=
  size_is (N.ldiff s t) k /\ size_is (N.ldiff t s) k.

(** alpha and beta occupation strings of a determinant *)
Definition alpha (W : nat) (x : N) : N := (x mod 2 ^ N.of_nat (W / 2))%N.
Definition beta (W : nat) (x : N) : N := (x / 2 ^ N.of_nat (W / 2))%N.

(** the string of one spin: [false] is alpha, [true] is beta *)
Definition str (W : nat) (sg : bool) (x : N) : N := if sg then beta W x else alpha W x.

(** [in_space W norb x]: only the first [norb] alpha and beta orbitals are used *)
Definition in_space (W norb : nat) (x : N) : Prop :=
  wf norb (alpha W x) /\ wf norb (beta W x).

(** [spin_moves W k s t]: k electrons moved in total, each keeping its spin *)
Definition spin_moves (W k : nat) (s t : N) : Prop :=
  exists ka kb, ka + kb = k /\ moves ka (alpha W s) (alpha W t) /\
                moves kb (beta W s) (beta W t).

(** binomial coefficients *)
Fixpoint binom (n k : nat) : nat :=
  match n, k with
  | _, 0 => 1
  | 0, S _ => 0
  | S n', S k' => binom n' k' + binom n' (S k')
  end.

(** strictly increasing *)
Definition increasing (l : list nat) : Prop := StronglySorted lt l.

(** all orbitals in which [s] and [t] differ are in [l] *)
Definition changes_in (l : list nat) (s t : N) : Prop := forall k, tb s k <> tb t k -> In k l.

(** the same for each spin separately *)
Definition spin_changes_in (W : nat) (l : list nat) (s t : N) : Prop :=
    changes_in l (alpha W s) (alpha W t) /\ changes_in l (beta W s) (beta W t).

(** [t] is [s] with exactly two electrons removed *)
Definition two_removed (s t : N) : Prop :=
  size_is (N.ldiff s t) 2 /\ N.ldiff t s = 0%N.

(** orbital [i] comes before orbital [j]: lower energy, ties broken by index *)
Definition precedes (e : nat -> Qc) (i j : nat) : Prop :=
  (e i < e j)%Qc \/ (e i = e j /\ i < j).

(** fewer than [k] of the orbitals below [n] come before [p]: [p] is among the
    first [k] orbitals in energy order *)
Definition among_first (e : nat -> Qc) (n k p : nat) : Prop :=
  exists l, NoDup l /\ (forall q, In q l <-> q < n /\ precedes e q p) /\ length l < k.

(** a determinant of the space; an all-zero string is an empty placeholder *)
Definition det_or_empty (W norb na nb : nat) (x : N) : Prop :=
  x = 0%N \/ (in_space W norb x /\ size_is (alpha W x) na /\ size_is (beta W x) nb).


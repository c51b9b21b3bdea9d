(** Vocabulary for numerical derivatives (C63). *)
From Coq Require Import QArith Qcanon Qcabs.
From Verif Require Import Base Sums Dense DenseSpec NumGrad.
Local Open Scope nat_scope.

(** the n x n matrix [f] as a packed array *)
Definition packed (n : nat) (f : nat -> nat -> Qc) : list Qc := map (fun x => f (x mod n) (x / n)) (seq 0 (n * n)).
(** the generator of the rotation of the pair (a, i) *)
Definition pair_rotation (a i p q : nat) : Qc :=
  if (p =? i) && (q =? a) then (- (1))%Qc else if (p =? a) && (q =? i) then 1%Qc else 0%Qc.
(** energy in the orbitals [U] *)
Definition energy_in (no ni na : nat) (T : nat -> nat -> Qc) (V : nat -> nat -> nat -> nat -> Qc)
    (D : nat -> nat -> Qc) (D2 : nat -> nat -> nat -> nat -> Qc) (U : nat -> nat -> Qc) : Qc :=
  total_energy ni na (congruence2 no U T) (congruence4 no U V) D D2.
(** derivatives at 0 by central differences with step h: the five-point formula, and the
    same formula in both variables *)
Definition five_point (h : Qc) (f : Qc -> Qc) : Qc :=
  ((f (- (inject 2 * h)) - f (inject 2 * h) + inject 8 * (f h - f (- h))) / (inject 12 * h))%Qc.
Definition mixed_five_point (h : Qc) (f : Qc -> Qc -> Qc) : Qc := five_point h (fun x => five_point h (f x)).
(** f is a polynomial of degree four up to [M * |t|^5] *)
Definition quartic (f : Qc -> Qc) (c0 c1 c2 c3 c4 M : Qc) : Prop :=
  forall t, (Qcabs t <= 1)%Qc ->
    (Qcabs (f t - (c0 + c1 * t + c2 * (t * t) + c3 * (t * t * t) + c4 * (t * t * t * t))) <= M * Qcabs (t * t * t * t * t))%Qc.
(** f is a polynomial of total degree five in two variables, with coefficients [c m n] of x^m y^n,
    up to [M * max(|x|, |y|)^6] *)
Fixpoint qpow (x : Qc) (n : nat) : Qc := match n with O => 1%Qc | S n => (x * qpow x n)%Qc end.
Definition quintic2 (f : Qc -> Qc -> Qc) (c : nat -> nat -> Qc) (M : Qc) : Prop :=
  forall x y r, (Qcabs x <= r)%Qc -> (Qcabs y <= r)%Qc -> (r <= 1)%Qc ->
    (Qcabs (f x y - Sigma 6 (fun m => Sigma (6 - m) (fun n => c m n * qpow x m * qpow y n))) <= M * qpow r 6)%Qc.
Definition unit_vector (N x0 : nat) : list Qc := map (fun x => if x =? x0 then 1%Qc else 0%Qc) (seq 0 N).

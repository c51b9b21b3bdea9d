(** Second quantisation, written independently of the code.
    An occupation-number state is a bit string; [Ann p] removes an electron
    from orbital [p] (zero if empty), [Cre p] adds one (zero if occupied); each
    picks up the sign (-1)^(number of occupied orbitals below p). *)
From Coq Require Import QArith Qcanon.
From Verif Require Import Base Sums.
Local Open Scope nat_scope.

Inductive op := Cre (p : nat) | Ann (p : nat).

(** parity of the number of electrons in orbitals below [p] *)
Definition parity_below (s : N) (p : nat) : bool := Nat.odd (length (positions p s)).

(** one operator: [Some (negative, state)], or [None] for the zero vector *)
Definition act (o : op) (s : N) : option (bool * N) :=
  match o with
  | Ann p => if tb s p then Some (parity_below s p, N.clearbit s (N.of_nat p)) else None
  | Cre p => if tb s p then None else Some (parity_below s p, N.setbit s (N.of_nat p))
  end.

(** a product of operators; the last in the list acts first *)
Fixpoint apply (ops : list op) (s : N) : option (bool * N) :=
  match ops with
  | [] => Some (false, s)
  | o :: r => match apply r s with
              | None => None
              | Some (sg, t) => match act o t with
                                | None => None
                                | Some (sg', t') => Some (xorb sg sg', t')
                                end
              end
  end.

(** <bra| ops |ket> *)
Definition braket (bra : N) (ops : list op) (ket : N) : Qc :=
  match apply ops ket with
  | None => 0%Qc
  | Some (sg, t) => if (t =? bra)%N then sgn sg else 0%Qc
  end.

(** spin orbital: alpha orbital p is bit p, beta orbital p is bit p + W/2 *)
Definition so (W : nat) (sigma : bool) (p : nat) : nat := if sigma then p + W / 2 else p.
Definition spins : list bool := [false; true].

(** <bra| sum_pq T_pq sum_sigma a+_p,sigma a_q,sigma |ket> *)
Definition one_body (W norb : nat) (T : nat -> nat -> Qc) (bra ket : N) : Qc :=
  sum spins (fun sg => sum (seq 0 norb) (fun p => sum (seq 0 norb) (fun q =>
    T p q * braket bra [Cre (so W sg p); Ann (so W sg q)] ket)%Qc)).

(** <bra| sum_pqrs V_pqrs sum_sigma,tau a+_p,sigma a+_r,tau a_s,tau a_q,sigma |ket> *)
Definition two_body (W norb : nat) (V : nat -> nat -> nat -> nat -> Qc) (bra ket : N) : Qc :=
  sum spins (fun sg => sum spins (fun ta =>
  sum (seq 0 norb) (fun p => sum (seq 0 norb) (fun q =>
  sum (seq 0 norb) (fun r => sum (seq 0 norb) (fun s =>
    V p q r s *
    braket bra [Cre (so W sg p); Cre (so W ta r); Ann (so W ta s); Ann (so W sg q)] ket)%Qc))))).

(** <bra|H|ket> with V_pqrs = (pq|rs) *)
Definition ham (W norb : nat) (T : nat -> nat -> Qc) (V : nat -> nat -> nat -> nat -> Qc)
  (bra ket : N) : Qc :=
  (one_body W norb T bra ket + half * two_body W norb V bra ket)%Qc.

(** sum_pq T_pq g_pq + sum_pqrs V_pqrs G_pqrs for one- and two-body density
    matrices g, G (G carries the factor 1/2) *)
Definition contract (norb : nat) (T g : nat -> nat -> Qc)
  (V G : nat -> nat -> nat -> nat -> Qc) : Qc :=
  (sum (seq 0 norb) (fun p => sum (seq 0 norb) (fun q => T p q * g p q)) +
   sum (seq 0 norb) (fun p => sum (seq 0 norb) (fun q =>
   sum (seq 0 norb) (fun r => sum (seq 0 norb) (fun s => V p q r s * G p q r s)))))%Qc.

(** two-electron integrals over real orbitals: (pq|rs) = (rs|pq) = (pq|sr) *)
Definition eri_symmetric (norb : nat) (V : nat -> nat -> nat -> nat -> Qc) : Prop :=
  forall p q r s, p < norb -> q < norb -> r < norb -> s < norb ->
    V p q r s = V r s p q /\ V p q r s = V p q s r.

(** [D] with the electron of spin [s] in orbital [o] moved to [p] *)
Definition moved (W : nat) (D : N) (s : bool) (o p : nat) : N :=
  N.setbit (N.clearbit D (N.of_nat (so W s o))) (N.of_nat (so W s p)).


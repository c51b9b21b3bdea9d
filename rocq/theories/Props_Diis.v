(** Theorems about the extrapolation of vectors (C49), stated with DiisSpec. *)
From Coq Require Import QArith Qcanon Bool.
From Verif Require Import Base Sums DenseSpec Diis DiisSpec DiisProofs DiisProofs2.
Local Open Scope nat_scope.

(* after any sequence of insertions the object holds the last [nmax] pairs in order *)
Theorem C49_history : forall nmax h, 0 < nmax -> exists d, add_all (diis_new nmax) h = Ok d /\ diis_pairs d = lastn nmax h.
Proof. intros nmax h H. exists (mk_diis nmax (lastn nmax h)). split; [exact (history_ok nmax h H)|reflexivity]. Qed.
Print Assumptions C49_history.
(* the solver is given the inner products of their errors, and the result is the
   combination of the kept vectors with the coefficients it returns *)
Theorem C49_extrapolation : forall gelss nmax h nv ne, 0 < nmax -> h <> [] ->
  (forall p, In p h -> length (fst p) = nv /\ length (snd p) = ne) ->
  let kept := lastn nmax h in let k := length kept in
  exists d B b, add_all (diis_new nmax) h = Ok d /\
    (forall i j, i < k + 1 -> j < k + 1 -> at2 B (k + 1) i j = bordered_gram ne (map snd kept) i j) /\
    length b = k + 1 /\ (forall i, i < k + 1 -> nth i b 0%Qc = if i =? k then 1%Qc else 0%Qc) /\
    (forall e, gelss (k + 1) B b = Err e -> extrapolate gelss d = Err e) /\
    forall c, gelss (k + 1) B b = Ok c -> k <= length c ->
      exists x, extrapolate gelss d = Ok x /\ length x = nv /\
        forall m, m < nv -> nth m x 0%Qc = combination (fun i => nth i c 0%Qc) (map fst kept) m.
Proof. exact diis_calls. Qed.
Print Assumptions C49_extrapolation.
(* with a least squares solver: no combination of the kept errors with coefficient
   sum one is shorter than that of the coefficients used *)
Theorem C49_optimal : forall gelss nmax h nv ne d x, 0 < nmax -> h <> [] ->
  (forall p, In p h -> length (fst p) = nv /\ length (snd p) = ne) -> least_squares gelss ->
  add_all (diis_new nmax) h = Ok d -> extrapolate gelss d = Ok x ->
  let kept := lastn nmax h in
  exists c, Sigma (length kept) c = 1%Qc /\ length x = nv /\ (forall m, m < nv -> nth m x 0%Qc = combination c (map fst kept) m) /\
    forall c', Sigma (length kept) c' = 1%Qc -> (norm2 ne (combination c (map snd kept)) <= norm2 ne (combination c' (map snd kept)))%Qc.
Proof. exact diis_optimal. Qed.
Print Assumptions C49_optimal.
(* if the errors are an affine function of the vectors, the result has no larger error than any kept vector *)
Theorem C49_affine : forall gelss nmax h nv ne d x (A : nat -> nat -> Qc) (s : nat -> Qc), 0 < nmax -> h <> [] ->
  (forall p, In p h -> length (fst p) = nv /\ length (snd p) = ne) -> least_squares gelss ->
  let err (v : list Qc) m := (Sigma nv (fun j => A m j * nth j v 0) - s m)%Qc in
  (forall p m, In p h -> m < ne -> nth m (snd p) 0%Qc = err (fst p) m) ->
  add_all (diis_new nmax) h = Ok d -> extrapolate gelss d = Ok x ->
  forall p, In p (lastn nmax h) -> (norm2 ne (err x) <= norm2 ne (err (fst p)))%Qc.
Proof. exact diis_affine. Qed.
Print Assumptions C49_affine.
(* not defined for a limit of zero, or before the first insertion *)
Theorem C49_zero_limit_refuted : forall v e h, add_all (diis_new 0) ((v, e) :: h) = Err UB.
Proof. exact history_zero. Qed.
Print Assumptions C49_zero_limit_refuted.
Theorem C49_empty_refuted : forall gelss nmax, exists B b, forall c, gelss 1 B b = Ok c -> extrapolate gelss (diis_new nmax) = Err UB.
Proof. exact extrapolate_empty. Qed.
Print Assumptions C49_empty_refuted.
(* three insertions with limit two and an exact solver: the result is 3/2 *)
Example C49_ex : least_squares ex_solver /\ lastn 2 ex_history = [([inject 1], [inject 1]); ([inject 2], [(- (1))%Qc])] /\
  (forall p, In p ex_history -> length (fst p) = 1 /\ length (snd p) = 1) /\
  exists d, add_all (diis_new 2) ex_history = Ok d /\ extrapolate ex_solver d = Ok [(inject 3 * half)%Qc].
Proof. exact (conj ex_solver_ok (conj eq_refl ex_diis)). Qed.

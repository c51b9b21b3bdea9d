(** Model of the natural-orbital rotation during growth on P > 1 ranks:
    include/macis/asci/grow.hpp:45-165 with grow_with_rot and MACIS_ENABLE_MPI. The wave function
    and the arrays of integrals are the same on every rank before a pass. [root] and [syevD]:
    square root and dense eigensolver of the Davidson iteration; [syev]: lapack::syev of the
    one-body density (all eigenpairs). An exception on rank 0, for which the other ranks would
    wait, is an error of the whole run. No proofs in this file. *)
From Coq Require Import QArith Qcanon Bool.
From Verif Require Import Base Nondet SD Sums Ham Mem Mcscf Asci Constraint Collective AsciMpi Davidson AsciPar AsciRot.
Local Open Scope nat_scope.

(* what every rank holds; what follows on ranks that hold different values is not modelled,
   the theorems show that it does not happen (as [common] in AsciPar.v) *)
Definition agreed {A} (dec : forall a b : A, {a = b} + {a <> b}) (l : list A) : res A :=
  match l with
  | [] => Err UB
  | a :: r => if forallb (fun b => if dec a b then true else false) r then Ok a else Err Hang
  end.
Notation agreed_array := (agreed (list_eq_dec Qc_eq_dec)).

Section ROTPAR.
  Variables (root : Qc -> Qc) (syevD syev : nat -> list Qc -> res (list Qc * list Qc)).

  (* grow.hpp:72-119: densities, natural orbitals and both transformations on rank 0 only, then
     the broadcast of its arrays to the others, which hold the old ones *)
  Definition rotate_integrals_mpi (P W n : nat) (wfn : list N) (X T V : list Qc) : res (list Qc * list Qc) :=
    do NO <- natural_orbitals syev W n wfn X;
    do TV <- rotate_integrals n (snd NO) T V;
    do Ts <- bcast (n * n) 0 (fst TV :: repeat T (P - 1));
    do Vs <- bcast (n * n * (n * n)) 0 (snd TV :: repeat V (P - 1));
    do T <- agreed_array Ts;
    do V <- agreed_array Vs;
    Ok (T, V).

  (* grow.hpp:66-161: the rotation, the new intermediates on every rank, and the diagonalisation
     with an empty X_local; its energy is dropped and its coefficients are gathered in X *)
  Definition grow_rotation_mpi (p : par) (dbg : bool) (W n : nat) (wfn : list N) (X T V : list Qc)
    : nd (list Qc * list Qc * list Qc) :=
    any TV <- det (rotate_integrals_mpi (p_ranks p) W n wfn X T V);
    let '(T, V) := TV in
    any h <- det (span_ints n T V);
    any EX <- p_selected_ci_diag root syevD dbg W h wfn (p_thr p) (p_ranks p) (p_sub p) (p_tol p) (repeat [] (p_ranks p));
    any Xs <- det (gather_coefficients (p_ranks p) (length wfn) (snd EX) (repeat X (p_ranks p)));
    any X <- det (agreed_array Xs);
    ret (T, V, X).

  (* grow.hpp:45-165: the while loop; [fuel] and [g] as in [asci_grow_mpi], the arrays as in
     [asci_grow_rot] *)
  Fixpoint asci_grow_rot_mpi (fuel : nat) (p : par) (g : nat -> nat -> nat) (dbg : bool) (W n : nat) (st : settings)
    (rs : rot_settings) (TV : list Qc * list Qc) (s : wfn_state) : nd (wfn_state * (list Qc * list Qc)) :=
    let '(E0, wfn, X) := s in
    if length wfn <? ntdets_max st then
      match fuel with
      | 0 => det (Err Hang)
      | S f =>
        let ndets_new := Nat.min (Nat.max (ntdets_min st) (length wfn * grow_factor st)) (ntdets_max st) in
        any h <- det (span_ints n (fst TV) (snd TV));
        any ss <- asci_iter_mpi root syevD p (g f) dbg W st h ndets_new s;
        any s' <- det (common ss);
        let '(E, wfn, X) := s' in
        if length wfn <? ndets_new then det (Err Throw)
        else if grow_with_rot rs && (rot_size_start rs <=? length wfn) then
          any R <- grow_rotation_mpi p dbg W n wfn X (fst TV) (snd TV);
          let '(T, V, X) := R in
          asci_grow_rot_mpi f p g dbg W n st rs (T, V) (E, wfn, X)
        else asci_grow_rot_mpi f p g dbg W n st rs TV (E, wfn, X)
      end
    else ret (s, TV).
End ROTPAR.

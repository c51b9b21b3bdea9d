(** Model of the natural-orbital rotation during growth, include/macis/asci/grow.hpp:45-165
    with grow_with_rot, on one rank. The generator's integrals are packed arrays that the
    rotation overwrites. Parameters: [syev] (lapack::syev, Job::Vec, Uplo::Lower: eigenvalues
    and eigenvectors of a packed matrix) and [dg], the diagonalisation (selected_ci_diag), a
    set of possible outcomes for all integrals and determinant lists. No proofs in this file. *)
From Coq Require Import QArith Qcanon Bool.
From Verif Require Import Base SD Sums Ham Nondet Mem Dense Mcscf Asci.
Local Open Scope nat_scope.

(* determinant_search.hpp:47-50: the two settings read by the rotation *)
Record rot_settings := mk_rot { grow_with_rot : bool; rot_size_start : nat }.

Section ROT.
  Variable syev : nat -> list Qc -> res (list Qc * list Qc).

  (* grow.hpp:76-97: densities of the wave function, natural occupation numbers and orbitals *)
  Definition natural_orbitals (W n : nat) (wfn : list N) (X : list Qc) : res (list Qc * list Qc) :=
    do D <- form_rdms_arrays W n wfn X (repeat 0%Qc (n * n)) (repeat 0%Qc (n * n * (n * n)));
    let ordm := map Qcopp (fst D) in
    do E <- syev n ordm;
    let '(ONS, ordm) := E in
    Ok (map Qcopp ONS, ordm).

  (* grow.hpp:107-110: both transformations in place *)
  Definition rotate_integrals (n : nat) (C T V : list Qc) : res (list Qc * list Qc) :=
    do T <- two_index_transform n n T n C n T n;
    do V <- four_index_transform n n V n C n V n;
    Ok (T, V).

  (* grow.hpp:66-161: the rotation, the new intermediates (reading all integrals again) and the
     diagonalisation, whose energy is dropped; the new integrals and coefficients *)
  Definition grow_rotation (W n : nat) (dg : ints -> diag) (wfn : list N) (X T V : list Qc)
    : nd (list Qc * list Qc * list Qc) :=
    any NO <- det (natural_orbitals W n wfn X);
    any TV <- det (rotate_integrals n (snd NO) T V);
    let '(T, V) := TV in
    any h <- det (span_ints n T V);
    any EX <- dg h wfn;
    ret (T, V, snd EX).

  (* grow.hpp:45-165: the while loop; [fuel] as in [asci_grow]. The arrays of the generator
     after the call are part of the result *)
  Fixpoint asci_grow_rot (fuel : nat) (dbg : bool) (W n : nat) (st : settings) (rs : rot_settings)
    (dg : ints -> diag) (TV : list Qc * list Qc) (s : wfn_state) : nd (wfn_state * (list Qc * list Qc)) :=
    let '(E0, wfn, X) := s in
    if length wfn <? ntdets_max st then
      match fuel with
      | 0 => det (Err Hang)
      | S f =>
        let ndets_new := Nat.min (Nat.max (ntdets_min st) (length wfn * grow_factor st)) (ntdets_max st) in
        any h <- det (span_ints n (fst TV) (snd TV));
        any s' <- asci_iter dbg W st h (dg h) ndets_new s;
        let '(E, wfn, X) := s' in
        if length wfn <? ndets_new then det (Err Throw)
        else if grow_with_rot rs && (rot_size_start rs <=? length wfn) then
          any R <- grow_rotation W n dg wfn X (fst TV) (snd TV);
          let '(T, V, X) := R in
          asci_grow_rot f dbg W n st rs dg (T, V) (E, wfn, X)
        else asci_grow_rot f dbg W n st rs dg TV (E, wfn, X)
      end
    else ret (s, TV).
End ROT.

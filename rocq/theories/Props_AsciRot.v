(** Property C61: growth with natural orbitals (grow_with_rot). *)
From Coq Require Import QArith Qcanon.
From Verif Require Import Base Nondet SD Spec Sums FockSpec Ham DenseSpec DavSpec McscfSpec CasciSpec Asci AsciSpec AsciRot AsciRotSpec AsciRotEx AsciRotGlue.
Local Open Scope nat_scope.

(** * C61 *)
(* every pass is an iteration, then (from rot_size_start determinants on) a rotation of the
   integrals to the natural orbitals of its result *)
Theorem C61_grow_rotating : forall syev W n na nb dbg st rs dg fuel TV s,
  all_eigenpairs syev -> spin_width W -> 0 < n -> n <= W / 2 ->
  (dbg = true -> na < n /\ nb < n) -> one_each dg ->
  (N.of_nat (ntdets_max st) < 2 ^ 64)%N -> 2 <= grow_factor st ->
  n * n <= length (fst TV) -> n * n * (n * n) <= length (snd TV) ->
  pair_symmetric n (at4 (snd TV) n) ->
  1 <= wfn_size s -> wfn_size s <= ntdets_max st -> valid_dets W n na nb (wfn_dets s) ->
  if_returns (asci_grow_rot syev fuel dbg W n st rs dg TV s) (fun r =>
    wfn_size (fst r) = ntdets_max st /\ valid_dets W n na nb (wfn_dets (fst r)) /\
    length (fst (snd r)) = length (fst TV) /\ length (snd (snd r)) = length (snd TV) /\
    exists l, last ((s, TV) :: l) (s, TV) = r /\
      path (grow_pass W n dbg st (grow_with_rot rs) (rot_size_start rs) dg) ((s, TV) :: l)).
Proof. exact c61_grow. Qed.
Print Assumptions C61_grow_rotating.
(* the integrals after the call are those before it in other orthonormal orbitals *)
Theorem C61_integrals_orthogonal : forall syev W n na nb dbg st rs dg fuel TV s,
  all_eigenpairs syev -> spin_width W -> 0 < n -> n <= W / 2 ->
  (dbg = true -> na < n /\ nb < n) -> one_each dg ->
  (N.of_nat (ntdets_max st) < 2 ^ 64)%N -> 2 <= grow_factor st ->
  n * n <= length (fst TV) -> n * n * (n * n) <= length (snd TV) ->
  pair_symmetric n (at4 (snd TV) n) ->
  1 <= wfn_size s -> wfn_size s <= ntdets_max st -> valid_dets W n na nb (wfn_dets s) ->
  if_returns (asci_grow_rot syev fuel dbg W n st rs dg TV s) (fun r =>
    exists U, rotated n U (at2 (fst TV) n) (at4 (snd TV) n) (at2 (fst (snd r)) n) (at4 (snd (snd r)) n)).
Proof. exact c61_orthogonal. Qed.
Print Assumptions C61_integrals_orthogonal.
Theorem C61_terminates : forall syev W n dbg st rs dg, 2 <= grow_factor st -> forall f f' TV s, 1 <= wfn_size s ->
  ntdets_max st - wfn_size s <= f -> ntdets_max st - wfn_size s <= f' ->
  forall r, asci_grow_rot syev f dbg W n st rs dg TV s r <-> asci_grow_rot syev f' dbg W n st rs dg TV s r.
Proof. exact c61_term. Qed.
Print Assumptions C61_terminates.
(* grow_with_rot = false: the growth of C36, and the integrals are left alone *)
Theorem C61_without_rotation : forall syev W n dbg st rs dg, grow_with_rot rs = false -> forall f TV s,
  n * n <= length (fst TV) -> n * n * (n * n) <= length (snd TV) -> forall r,
  asci_grow_rot syev f dbg W n st rs dg TV s r <->
  exists r0, asci_grow f dbg W st (held n TV) (dg (held n TV)) s r0 /\
    r = match r0 with Ok s' => Ok (s', TV) | Err e => Err e end.
Proof. exact c61_off. Qed.
Print Assumptions C61_without_rotation.
(* a run that rotates: the returned integrals differ from the given ones *)
Example C61_grow_ex : all_eigenpairs rx_syev /\ one_each rx_dg /\ (N.of_nat (ntdets_max rx_st) < 2 ^ 64)%N /\ 2 <= grow_factor rx_st /\
  length rx_T = 2 * 2 /\ length rx_V = 2 * 2 * (2 * 2) /\ pair_symmetric 2 (at4 rx_V 2) /\ wfn_size rx_s0 = 1 /\ ntdets_max rx_st = 2 /\
  valid_dets 64 2 1 1 (wfn_dets rx_s0) /\
  forall fuel, 1 <= fuel -> always (asci_grow_rot rx_syev fuel true 64 2 rx_st rx_rs rx_dg (rx_T, rx_V) rx_s0)
    (fun r => r = (rx_s1, (rx_T', rx_V')) /\ rx_T' <> rx_T).
Proof. exact c61_ex. Qed.
(* the returned energy is not that of the returned determinants with the returned integrals,
   even with exact solvers: the diagonalisation after the rotation gives new coefficients, but
   its energy is dropped *)
Theorem C61_energy_refuted : exists syev W n na nb dbg st rs (dg : ints -> diag) (TV : list Qc * list Qc) s,
  all_eigenpairs syev /\ spin_width W /\ 0 < n /\ n <= W / 2 /\
  (forall h dets E X, dg h dets (Ok (E, X)) ->
     length X = length dets /\ lowest_eigenpair (length dets) (ci_matrix W h 0 dets) E (fun i => nth i X 0%Qc)) /\
  n * n = length (fst TV) /\ n * n * (n * n) = length (snd TV) /\ pair_symmetric n (at4 (snd TV) n) /\
  (N.of_nat (ntdets_max st) < 2 ^ 64)%N /\ 2 <= grow_factor st /\ wfn_size s = 1 /\ valid_dets W n na nb (wfn_dets s) /\
  (dbg = true -> na < n /\ nb < n) /\
  forall fuel, 1 <= fuel -> always (asci_grow_rot syev fuel dbg W n st rs dg TV s) (fun r =>
    forall x c, lowest_eigenpair (wfn_size (fst r)) (ci_matrix W (held n (snd r)) 0 (wfn_dets (fst r))) x c ->
      wfn_energy (fst r) <> x).
Proof. exact c61_energy. Qed.
Print Assumptions C61_energy_refuted.

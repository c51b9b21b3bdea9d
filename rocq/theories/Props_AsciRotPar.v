(** Property C72: growth with natural orbitals (grow_with_rot) on several ranks. *)
From Coq Require Import QArith Qcanon.
From Verif Require Import Base Nondet SD Spec Sums FockSpec Ham DenseSpec DiisSpec DavSpec DavEx McscfSpec CasciSpec Asci AsciSpec Collective AsciPar AsciParSpec AsciRot AsciRotSpec AsciRotEx AsciRotPar AsciRotParSpec AsciRotParEx AsciRotParGlue.
Local Open Scope nat_scope.

(** * C72 *)
(* every pass is an iteration after which all ranks hold the same wave function, then (from
   rot_size_start determinants on) a rotation to its natural orbitals, which all ranks hold *)
Theorem C72_grow_rotating : forall root syevD syev W n na nb p dbg st rs fuel g TV s,
  all_eigenpairs syev -> spin_width W -> 0 < n -> n <= W / 2 -> (dbg = true -> na < n /\ nb < n) ->
  1 < p_ranks p -> (0 <= p_thr p)%Qc -> (Z.of_nat (ntdets_max st * p_ranks p) < 2 ^ 31)%Z -> 1 <= grow_factor st ->
  length (fst TV) = n * n -> length (snd TV) = n * n * (n * n) -> pair_symmetric n (at4 (snd TV) n) ->
  wfn_size s <= ntdets_max st -> valid_dets W n na nb (wfn_dets s) -> length (snd s) = wfn_size s ->
  if_returns (asci_grow_rot_mpi root syevD syev fuel p g dbg W n st rs TV s) (fun r =>
    wfn_size (fst r) = ntdets_max st /\ valid_dets W n na nb (wfn_dets (fst r)) /\
    length (fst (snd r)) = n * n /\ length (snd (snd r)) = n * n * (n * n) /\
    exists l, last ((s, TV) :: l) (s, TV) = r /\
      path (grow_pass_mpi root W n (p_thr p) (p_tol p) st (grow_with_rot rs) (rot_size_start rs)) ((s, TV) :: l)).
Proof. exact c72_grow. Qed.
Print Assumptions C72_grow_rotating.
(* the integrals after the call are those before it in other orthonormal orbitals *)
Theorem C72_integrals_orthogonal : forall root syevD syev W n na nb p dbg st rs fuel g TV s,
  all_eigenpairs syev -> spin_width W -> 0 < n -> n <= W / 2 -> (dbg = true -> na < n /\ nb < n) ->
  1 < p_ranks p -> (0 <= p_thr p)%Qc -> (Z.of_nat (ntdets_max st * p_ranks p) < 2 ^ 31)%Z -> 1 <= grow_factor st ->
  length (fst TV) = n * n -> length (snd TV) = n * n * (n * n) -> pair_symmetric n (at4 (snd TV) n) ->
  wfn_size s <= ntdets_max st -> valid_dets W n na nb (wfn_dets s) -> length (snd s) = wfn_size s ->
  if_returns (asci_grow_rot_mpi root syevD syev fuel p g dbg W n st rs TV s) (fun r =>
    exists U, rotated n U (at2 (fst TV) n) (at4 (snd TV) n) (at2 (fst (snd r)) n) (at4 (snd (snd r)) n)).
Proof. exact c72_orthogonal. Qed.
Print Assumptions C72_integrals_orthogonal.
(* what rank 0 computes reaches every rank: no broadcast of up to 64 orbitals is refused *)
Theorem C72_ranks_agree : forall syev P W n wfn X T V C T' V' ONS, 1 < P -> spin_width W -> 0 < n -> n <= W / 2 ->
  length T = n * n -> length V = n * n * (n * n) -> length C = n * n ->
  natural_orbitals syev W n wfn X = Ok (ONS, C) -> rotate_integrals n C T V = Ok (T', V') ->
  bcast (n * n) 0 (T' :: repeat T (P - 1)) = Ok (repeat T' P) /\
  bcast (n * n * (n * n)) 0 (V' :: repeat V (P - 1)) = Ok (repeat V' P) /\
  rotate_integrals_mpi syev P W n wfn X T V = Ok (T', V').
Proof. exact c72_same. Qed.
Print Assumptions C72_ranks_agree.
(* grow_with_rot = false: the growth of C62, and the integrals are left alone *)
Theorem C72_without_rotation : forall root syevD syev p g dbg W n st rs, grow_with_rot rs = false -> forall f TV s,
  n * n <= length (fst TV) -> n * n * (n * n) <= length (snd TV) -> forall r,
  asci_grow_rot_mpi root syevD syev f p g dbg W n st rs TV s r <->
  exists r0, asci_grow_mpi root syevD f p g dbg W st (held n TV) s r0 /\
    r = match r0 with Ok s' => Ok (s', TV) | Err e => Err e end.
Proof. exact c72_off. Qed.
Print Assumptions C72_without_rotation.
(* growth does return, with the result of the rotation, when the last iteration and the
   rotation do *)
Theorem C72_returns : forall root syevD syev W n p dbg st rs f g TV s m T' V' X', 0 < p_ranks p ->
  n * n <= length (fst TV) -> n * n * (n * n) <= length (snd TV) ->
  wfn_size s < ntdets_max st -> ntdets_max st <= Nat.max (ntdets_min st) (wfn_size s * grow_factor st) ->
  asci_iter_mpi root syevD p (g f) dbg W st (held n TV) (ntdets_max st) s (Ok (repeat m (p_ranks p))) ->
  wfn_size m = ntdets_max st -> grow_with_rot rs = true -> rot_size_start rs <= ntdets_max st ->
  grow_rotation_mpi root syevD syev p dbg W n (wfn_dets m) (snd m) (fst TV) (snd TV) (Ok (T', V', X')) ->
  asci_grow_rot_mpi root syevD syev (S f) p g dbg W n st rs TV s (Ok ((wfn_energy m, wfn_dets m, X'), (T', V'))).
Proof. exact c72_returns. Qed.
Print Assumptions C72_returns.
(* a rotation on two ranks with an exact square root and eigensolver. The new coefficients are
   those of energy 1850; the energy that growth returns is that before the rotation, 1847 *)
Example C72_rotation_ex : all_eigenpairs rx_syev /\ exact_root ex_root /\ eigensolver rp_syev /\ valid_dets 64 2 1 1 [rx_D1; rx_D] /\ p_ranks rp_par = 2 /\
  length rx_T = 2 * 2 /\ length rx_V = 2 * 2 * (2 * 2) /\ pair_symmetric 2 (at4 rx_V 2) /\ rx_T' <> rx_T /\
  lowest_eigenpair 2 (ci_matrix 64 (held 2 (rx_T, rx_V)) 0 [rx_D1; rx_D]) (inject 1847) (fun i => nth i rx_X1 0%Qc) /\
  lowest_eigenpair 2 (ci_matrix 64 (held 2 (rx_T', rx_V')) 0 [rx_D1; rx_D]) (inject 1850) (fun i => nth i rx_X2 0%Qc) /\
  forall dbg, always (grow_rotation_mpi ex_root rp_syev rx_syev rp_par dbg 64 2 [rx_D1; rx_D] rx_X1 rx_T rx_V)
    (fun R => R = (rx_T', rx_V', rx_X2)).
Proof. exact c72_ex. Qed.

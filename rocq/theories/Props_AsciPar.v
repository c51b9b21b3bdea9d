(** Property C62: ASCI iterations, growth and refinement on several ranks. *)
From Coq Require Import QArith Qcanon.
From Verif Require Import Base Nondet SD Spec Sums FockSpec Ham PropsHamGlue DenseSpec DiisSpec DavSpec Asci AsciSpec AsciGlue ConstraintGlue2 AsciPar AsciParSpec AsciParGlue2 AsciParEx.
Local Open Scope nat_scope.

(** * C62 *)
(* the coefficients: rank r holds n/P of them, the last one also the remainder; every rank
   gets them all, in order *)
Theorem C62_gather : forall P n (Ys : list (list Qc)) X, 1 < P -> length Ys = P ->
  (forall r, r < P -> length (nth r Ys []) = n / P + if r =? P - 1 then n mod P else 0) ->
  gather_coefficients P n Ys (repeat X P) = Ok (repeat (concat Ys) P).
Proof. exact c62_gather. Qed.
Print Assumptions C62_gather.
(* every rank ends with the same wave function: the leading determinants of the given one
   and excitations of them, no determinant twice, and an approximate eigenpair *)
Theorem C62_iteration : forall root syev W h p dbg st na nb, spin_width W -> norb h <= W / 2 ->
  (forall p q r s, p < norb h -> q < norb h -> r < norb h -> s < norb h -> V_pqrs h p q r s = V_pqrs h r s p q) ->
  (dbg = true -> na < norb h /\ nb < norb h) -> 1 < p_ranks p -> (0 <= p_thr p)%Qc ->
  forall g m s, valid_dets W (norb h) na nb (wfn_dets s) -> length (snd s) = wfn_size s ->
  Nat.min (ncdets_max st) (wfn_size s) <= m -> (Z.of_nat (m * p_ranks p) < 2 ^ 31)%Z ->
  if_returns (asci_iter_mpi root syev p g dbg W st h m s) (fun ss => exists s', ss = repeat s' (p_ranks p) /\
    valid_dets W (norb h) na nb (wfn_dets s') /\ passed root W h (ncdets_max st) (p_thr p) (p_tol p) m s s').
Proof. exact c62_iter. Qed.
Print Assumptions C62_iteration.
Theorem C62_variational : forall root syev W h p dbg st na nb, spin_width W -> norb h <= W / 2 ->
  (forall p q r s, p < norb h -> q < norb h -> r < norb h -> s < norb h -> V_pqrs h p q r s = V_pqrs h r s p q) ->
  (dbg = true -> na < norb h /\ nb < norb h) -> 1 < p_ranks p -> (0 <= p_thr p)%Qc ->
  forall g m s, (forall p q, p < norb h -> q < norb h -> T_pq h p q = T_pq h q p) ->
  (forall p q r s, p < norb h -> q < norb h -> r < norb h -> s < norb h -> V_pqrs h p q r s = V_pqrs h q p s r) ->
  exact_root root -> eigensolver syev ->
  valid_dets W (norb h) na nb (wfn_dets s) -> length (snd s) = wfn_size s ->
  Nat.min (ncdets_max st) (wfn_size s) <= m -> (Z.of_nat (m * p_ranks p) < 2 ^ 31)%Z ->
  if_returns (asci_iter_mpi root syev p g dbg W st h m s) (fun ss => Forall (variational W h (p_thr p)) ss).
Proof. exact c62_var. Qed.
Print Assumptions C62_variational.
Example C62_iteration_ex : norb ex_ints = 4 /\ p_ranks px_par = 3 /\ valid_dets 64 4 3 1 (wfn_dets px_s) /\
  (forall p q r s, p < 4 -> q < 4 -> r < 4 -> s < 4 -> V_pqrs ex_ints p q r s = V_pqrs ex_ints r s p q) /\
  forall g, always (asci_iter_mpi px_root px_syev px_par g true 64 px_st ex_ints 3 px_s) (fun ss => ss = [px_s'; px_s'; px_s']).
Proof. exact (conj eq_refl (conj eq_refl (conj px_valid (conj px_sym px_iter)))). Qed.

Theorem C62_grow : forall root syev W h p dbg st na nb, spin_width W -> norb h <= W / 2 ->
  (forall p q r s, p < norb h -> q < norb h -> r < norb h -> s < norb h -> V_pqrs h p q r s = V_pqrs h r s p q) ->
  (dbg = true -> na < norb h /\ nb < norb h) -> 1 < p_ranks p -> (0 <= p_thr p)%Qc ->
  forall fuel g s, 1 <= grow_factor st -> (Z.of_nat (ntdets_max st * p_ranks p) < 2 ^ 31)%Z -> wfn_size s <= ntdets_max st ->
  valid_dets W (norb h) na nb (wfn_dets s) -> length (snd s) = wfn_size s ->
  if_returns (asci_grow_mpi root syev fuel p g dbg W st h s) (fun s' =>
    wfn_size s' = ntdets_max st /\ valid_dets W (norb h) na nb (wfn_dets s') /\
    exists l, last (s :: l) s = s' /\
      path (fun a b =>
        let target := Nat.min (Nat.max (ntdets_min st) (wfn_size a * grow_factor st)) (ntdets_max st) in
        passed root W h (ncdets_max st) (p_thr p) (p_tol p) target a b /\ wfn_size b = target /\
        wfn_size a < ntdets_max st) (s :: l)).
Proof. exact c62_grow. Qed.
Print Assumptions C62_grow.
Example C62_grow_ex : ntdets_max px_st = 3 /\ grow_factor px_st = 2 /\ wfn_size px_s = 2 /\ wfn_size px_s' = 3 /\
  forall fuel g, 1 <= fuel -> always (asci_grow_mpi px_root px_syev fuel px_par g true 64 px_st ex_ints px_s) (fun s' => s' = px_s').
Proof. exact (conj eq_refl (conj eq_refl (conj eq_refl (conj eq_refl px_grow)))). Qed.
Theorem C62_refine : forall root syev W h p dbg st na nb, spin_width W -> norb h <= W / 2 ->
  (forall p q r s, p < norb h -> q < norb h -> r < norb h -> s < norb h -> V_pqrs h p q r s = V_pqrs h r s p q) ->
  (dbg = true -> na < norb h /\ nb < norb h) -> 1 < p_ranks p -> (0 <= p_thr p)%Qc ->
  forall g s, (Z.of_nat (wfn_size s * p_ranks p) < 2 ^ 31)%Z ->
  valid_dets W (norb h) na nb (wfn_dets s) -> length (snd s) = wfn_size s ->
  if_returns (asci_refine_mpi root syev p g dbg W st h s) (fun s' =>
    wfn_size s' = wfn_size s /\ valid_dets W (norb h) na nb (wfn_dets s') /\
    exists l, 1 <= length l <= max_refine_iter st /\
      path (fun a b => passed root W h (ncdets_max st) (p_thr p) (p_tol p) (wfn_size s) a b /\ wfn_size b = wfn_size s) (s :: l) /\
      last (s :: l) s = s' /\
      (Qcabs (wfn_energy s' - wfn_energy (last (removelast (s :: l)) s)) < refine_energy_tol st)%Qc).
Proof. exact c62_refine. Qed.
Print Assumptions C62_refine.

(* fewer determinants than ranks: no iteration returns *)
Theorem C62_few_determinants_refuted : forall root syev W h p dbg st na nb, spin_width W -> norb h <= W / 2 ->
  (forall p q r s, p < norb h -> q < norb h -> r < norb h -> s < norb h -> V_pqrs h p q r s = V_pqrs h r s p q) ->
  (dbg = true -> na < norb h /\ nb < norb h) -> 1 < p_ranks p -> (0 <= p_thr p)%Qc ->
  forall g m s r, valid_dets W (norb h) na nb (wfn_dets s) -> length (snd s) = wfn_size s ->
  Nat.min (ncdets_max st) (wfn_size s) <= m -> m < p_ranks p -> (Z.of_nat (p_ranks p * p_ranks p) < 2 ^ 31)%Z ->
  ~ asci_iter_mpi root syev p g dbg W st h m s (Ok r).
Proof. exact c62_few. Qed.
Print Assumptions C62_few_determinants_refuted.
(* growth from the single determinant of lowest energy does not return unless the first
   target is a multiple of the number of ranks: the determinant moves to the last row, and
   the start vector of the solver has no rows beyond P * (size / P) *)
Theorem C62_first_step_refuted : forall root syev W h p dbg st na nb, spin_width W -> norb h <= W / 2 ->
  (forall p q r s, p < norb h -> q < norb h -> r < norb h -> s < norb h -> V_pqrs h p q r s = V_pqrs h r s p q) ->
  (dbg = true -> na < norb h /\ nb < norb h) -> 1 < p_ranks p -> (0 <= p_thr p)%Qc ->
  forall fuel g s r D, wfn_dets s = [D] -> in_space W (norb h) D -> size_is (alpha W D) na -> size_is (beta W D) nb ->
  length (snd s) = 1 ->
  (ham W (norb h) (T_pq h) (V_pqrs h) D D < - p_thr p)%Qc ->
  (forall t, in_space W (norb h) t -> size_is (alpha W t) na -> size_is (beta W t) nb -> t <> D ->
     (ham W (norb h) (T_pq h) (V_pqrs h) D D < ham W (norb h) (T_pq h) (V_pqrs h) t t)%Qc) ->
  root 0%Qc = 0%Qc -> 1 <= ncdets_max st -> 1 < ntdets_max st -> 1 <= grow_factor st ->
  (Z.of_nat (ntdets_max st * p_ranks p) < 2 ^ 31)%Z ->
  Nat.min (Nat.max (ntdets_min st) (grow_factor st)) (ntdets_max st) mod p_ranks p <> 0 ->
  ~ asci_grow_mpi root syev fuel p g dbg W st h s (Ok r).
Proof. exact c62_first. Qed.
Print Assumptions C62_first_step_refuted.
Example C62_first_step_ex : norb low_ints = 4 /\ in_space 64 4 low_D /\ size_is (alpha 64 low_D) 3 /\ size_is (beta 64 low_D) 1 /\
  (ham 64 4 (T_pq low_ints) (V_pqrs low_ints) low_D low_D < - (0))%Qc /\
  (forall t, in_space 64 4 t -> size_is (alpha 64 t) 3 -> size_is (beta 64 t) 1 -> t <> low_D ->
    (ham 64 4 (T_pq low_ints) (V_pqrs low_ints) low_D low_D < ham 64 4 (T_pq low_ints) (V_pqrs low_ints) t t)%Qc) /\
  Nat.min (Nat.max (ntdets_min px_st) (grow_factor px_st)) (ntdets_max px_st) mod 2 <> 0.
Proof. exact (conj eq_refl low_ex'). Qed.

(** Model of asci_iter, asci_grow (without rotation) and asci_refine on P > 1 ranks:
    include/macis/asci/iteration.hpp:16-72, grow.hpp:45-165, refine.hpp:40-63 with
    MACIS_ENABLE_MPI. The wave function before a call is the same on every rank, and the ranks
    run the same program on it, so what is computed from it alone is computed once. [root] and
    [syev]: square root and dense eigensolver of the Davidson iteration. No proofs in this
    file. *)
From Coq Require Import QArith Qcanon.
From Verif Require Import Base Nondet SD Sums Ham Asci Constraint Collective AsciMpi Davidson.
Local Open Scope nat_scope.

(* MPI_Allgather of [count] elements of every rank: the blocks in rank order at the beginning
   of every receive buffer *)
Definition MPI_Allgather {A} (count : nat) (send recv : list (list A)) : res (list (list A)) :=
  do blocks <- mapM (slice 0 count) send;
  do _ <- mapM (slice 0 (count * length send)) recv;
  Ok (map (set_range 0 (concat blocks)) recv).

(* iteration.hpp:45-62 (also grow.hpp:131-150): X_local and X of every rank *)
Definition gather_coefficients (P wfn_size : nat) (X_local X : list (list Qc)) : res (list (list Qc)) :=
  let local_count := wfn_size / P in
  let X := map (resize wfn_size) X in
  do X <- MPI_Allgather local_count X_local X;
  let nrem := wfn_size mod P in
  if nrem =? 0 then Ok X
  else
    do X <- mapM (fun rX : nat * list Qc =>
        if fst rX =? P - 1 then
          do X_loc <- at_ X_local (fst rX);
          do rem <- slice local_count nrem X_loc;
          do _ <- slice (P * local_count) nrem (snd rX);
          Ok (set_range (P * local_count) rem (snd rX))
        else Ok (snd rX)) (combine (seq 0 P) X);
    MPI_Bcast (P * local_count) nrem (P - 1) X.

(* parameters of the parallel run: number of ranks, constraint_level, the bound on the
   iterations of dist_quickselect, and MCSCFSettings::ci_matel_tol, ci_max_subspace, ci_res_tol *)
Record par := mk_par { p_ranks : nat; p_level : nat; p_select : nat; p_thr : Qc; p_sub : nat; p_tol : Qc }.

Definition wfn_eq_dec (a b : wfn_state) : {a = b} + {a <> b}.
Proof. repeat decide equality; apply Qc_eq_dec. Defined.
(* the wave function of all ranks. What follows on ranks that hold different ones is not
   modelled; the theorems show that it does not happen *)
Definition common (ss : list wfn_state) : res wfn_state :=
  match ss with
  | [] => Err UB
  | s :: r => if forallb (fun t => if wfn_eq_dec s t then true else false) r then Ok s else Err Hang
  end.

Section PAR.
  Variables (root : Qc -> Qc) (syev : nat -> list Qc -> res (list Qc * list Qc)).

  (* iteration.hpp:16-72: what every rank returns. [g]: random numbers of dist_quickselect *)
  Definition asci_iter_mpi (p : par) (g : nat -> nat) (dbg : bool) (W : nat) (st : settings) (h : ints)
    (ndets_max : nat) (s : wfn_state) : nd (list wfn_state) :=
    let '(E0, wfn, X) := s in
    any wX <- (if 1 <? length wfn then reorder_ci_on_coeff wfn X else ret (wfn, X));
    let nkeep := Nat.min (ncdets_max st) (length (fst wX)) in
    any new <- asci_search_mpi (p_select p) g dbg W st (p_level p) h ndets_max (firstn nkeep (fst wX)) E0 (snd wX) (p_ranks p);
    any EX <- p_selected_ci_diag root syev dbg W h new (p_thr p) (p_ranks p) (p_sub p) (p_tol p) (repeat [] (p_ranks p));
    any Xs <- det (gather_coefficients (p_ranks p) (length new) (snd EX) (repeat (snd wX) (p_ranks p)));
    ret (map (fun EX => (fst EX, new, snd EX)) (combine (fst EX) Xs)).

  (* grow.hpp:45-165, as [asci_grow]; [g i]: the random numbers when [i] more passes are allowed *)
  Fixpoint asci_grow_mpi (fuel : nat) (p : par) (g : nat -> nat -> nat) (dbg : bool) (W : nat) (st : settings) (h : ints)
    (s : wfn_state) : nd wfn_state :=
    let '(E0, wfn, X) := s in
    if length wfn <? ntdets_max st then
      match fuel with
      | 0 => det (Err Hang)
      | S f =>
        let ndets_new := Nat.min (Nat.max (ntdets_min st) (length wfn * grow_factor st)) (ntdets_max st) in
        any ss <- asci_iter_mpi p (g f) dbg W st h ndets_new s;
        any s' <- det (common ss);
        if length (snd (fst s')) <? ndets_new then det (Err Throw)
        else asci_grow_mpi f p g dbg W st h s'
      end
    else ret s.

  (* refine.hpp:40-63, as [refine_loop] *)
  Fixpoint refine_loop_mpi (n : nat) (p : par) (g : nat -> nat -> nat) (dbg : bool) (W : nat) (st : settings) (h : ints)
    (ndets : nat) (s : wfn_state) : nd wfn_state :=
    match n with
    | 0 => det (Err Throw)
    | S n' =>
      any ss <- asci_iter_mpi p (g n') dbg W st h ndets s;
      any s' <- det (common ss);
      if negb (length (snd (fst s')) =? ndets) then det (Err Throw)
      else if abs_lt (fst (fst s') - fst (fst s))%Qc (refine_energy_tol st) then ret s'
      else refine_loop_mpi n' p g dbg W st h ndets s'
    end.
  (* refine.hpp:14-66 *)
  Definition asci_refine_mpi (p : par) (g : nat -> nat -> nat) (dbg : bool) (W : nat) (st : settings) (h : ints)
    (s : wfn_state) : nd wfn_state :=
    refine_loop_mpi (max_refine_iter st) p g dbg W st h (length (snd (fst s))) s.
End PAR.

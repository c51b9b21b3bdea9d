(** Model of the standalone driver, tests/standalone_driver.cxx, built with MPI and run on
    P > 1 ranks. The ranks read the same files and run the same program up to the parallel
    algorithms, so what all of them compute is computed once. The files are those left behind
    by rank 0; FCIDUMP_OUT is written by every rank, each with the same contents, and how these
    writes interleave is not modelled. [g]: random numbers of dist_quickselect in the growth
    and in the refinement. No proofs in this file. *)
From Coq Require Import Ascii String QArith Qcanon ZArith NArith Bool.
From Verif Require Import Base Bits SD Sums Ham Nondet Mem Text IO Dense Diis Davidson Mcscf Asci AsciRot AsciPar AsciRotPar Ini Driver.
Local Open Scope nat_scope.

(* standalone_driver.cxx:182: constraint_level is an int; a number that is not a level makes
   the search throw, whether negative or large *)
Definition driver_level (d : dict (dict text)) : res nat :=
  do l <- opt get_int d "ASCI.CONSTRAINT_LVL" 2%Z;
  Ok (Z.to_nat (size_wrap l)).

Section DRIVERMPI.
  Variables (root : Qc -> Qc) (syev : nat -> list Qc -> res (list Qc * list Qc)) (syev_ld : nat -> list Qc -> nat -> res (list Qc * list Qc))
            (gelss : nat -> list Qc -> list Qc -> res (list Qc)) (expm : nat -> list Qc -> res (list Qc))
            (rnd : Q -> res Qc) (show : Qc -> text) (dec : list N -> Qc).
  Variables (P : nat) (g : bool -> nat -> nat -> nat) (fuel : nat) (dbg : bool) (fs : text -> option text) (fsb : text -> option (list N)).

  (* compute_casci_rdms as all ranks call it, with the same arrays, and what rank 0 gets (for
     P > 1 it does not return, C56) *)
  Definition casci_rdms_mpi (st : Mcscf.settings) : rdm_functor := fun no nalpha nbeta T V ORDM TRDM C =>
    any r <- p_compute_casci_rdms root syev dbg fuel 64 st P no nalpha nbeta T V (repeat ORDM P) (repeat TRDM P) (repeat C P);
    let '(E, D, C) := r in
    any E <- det (at_ E 0);
    any D <- det (at_ D 0);
    any C <- det (at_ C 0);
    ret (E, fst D, snd D, C).

  (* standalone_driver.cxx:285-308; C_local is the rank's part of the vector *)
  Definition driver_cas_mpi (o : driver_options) (nalpha : nat) (E_inactive E_core : Qc) (TA VA : list Qc) : nd (Qc * list (Qc * text)) :=
    let na := d_nactive o in
    any r <- casci_rdms_mpi (mcscf_settings (d_mcscf o)) na nalpha nalpha TA VA (repeat 0%Qc (na * na)) (repeat 0%Qc (na * na * (na * na))) [];
    let '(E0, _, _, C) := r in
    any l <- det (driver_determinants fuel (d_print o) na nalpha nalpha C);
    ret (E0 + (E_inactive + E_core), l)%Qc.

  Definition par_of (m : mcscf_options) (level : nat) : par :=
    mk_par P level fuel (k_ci_matel m) (Z.to_nat (k_ci_sub m)) (k_ci_tol m).
  (* standalone_driver.cxx:311-372; only rank 0 writes the wave function *)
  Definition driver_asci_mpi (o : driver_options) (level nalpha : nat) (E_inactive E_core : Qc) (TA VA : list Qc) (old : text) : nd (Qc * option text) :=
    let na := d_nactive o in let a := d_asci o in let p := par_of (d_mcscf o) level in
    any h <- det (span_ints na TA VA);
    any s <- det (driver_guess rnd fs a h nalpha E_inactive E_core);
    any r <- asci_grow_rot_mpi root syev syev fuel p (g false) dbg 64 na (asci_settings a) (mk_rot (k_rot a) (Z.to_nat (k_rot_start a))) (TA, VA) s;
    let '(s, TV) := r in
    any h <- det (span_ints na (fst TV) (snd TV));
    any s <- (if (k_refine a =? 0)%Z then ret s else asci_refine_mpi root syev p (g true) dbg 64 (asci_settings a) h s);
    let '(E0, dets, C) := s in
    any w <- det (match k_wfn_out a with
                  | [] => Ok None
                  | _ => do f <- write_wavefunction show 64 na dets C old; Ok (Some f)
                  end);
    ret (E0 + (E_inactive + E_core), w)%Qc.

  (* standalone_driver.cxx:378-414 *)
  Definition driver_mcscf_mpi (o : driver_options) (norb nalpha : nat) (E_core : Qc) (T V : list Qc) : nd Qc :=
    let na := d_nactive o in let ni := d_ninactive o in
    any D <- det (match d_rdm o with
                  | [] => Ok (repeat 0%Qc (na * na), repeat 0%Qc (na * na * (na * na)))
                  | name =>
                    do x <- read_rdms_binary dec (fsb name) norb (repeat 0%Qc (norb * norb)) norb (repeat 0%Qc (norb * norb * (norb * norb))) norb;
                    do A1 <- active_submatrix_1body na ni (fst x) norb (repeat 0%Qc (na * na)) na;
                    do A2 <- active_subtensor_2body na ni (snd x) norb (repeat 0%Qc (na * na * (na * na))) na;
                    Ok (A1, A2)
                  end);
    let st := mcscf_settings (d_mcscf o) in
    any r <- mcscf_impl root gelss expm (casci_rdms_mpi st) st nalpha nalpha norb ni na (d_nvirtual o) E_core T norb V norb na na (fst D) (snd D);
    let '(E, _, _, _) := r in ret E.

  (* standalone_driver.cxx:82-420 *)
  Definition driver_mpi (input : option text) : nd outcome :=
    any name <- det (match input with Some n => Ok n | None => Err Throw end);
    any d <- det (ini_parse (fs name));
    any r <- det (driver_required d);
    let '(fcidump, nalpha) := r in
    any ints <- det (driver_integrals rnd (stream fs fcidump));
    let '(norb, E_core, T, V) := ints in
    any o <- det (driver_setup rnd d norb);
    any level <- det (driver_level d);
    let nalpha := Z.to_nat nalpha in
    any TV <- det (driver_orbitals syev_ld (d_mp2 o) norb (d_ninactive o + nalpha) T V);
    let '(T, V) := TV in
    let na := d_nactive o in let ni := d_ninactive o in
    any H <- det (active_hamiltonian norb na ni T norb V norb (repeat 0%Qc (norb * norb)) norb (repeat 0%Qc (na * na)) na (repeat 0%Qc (na * na * (na * na))) na);
    let '(Fi, TA, VA) := H in
    any E_inactive <- det (inactive_energy ni T norb Fi norb);
    any x <- match d_job o with
             | JobCI =>
               match d_exp o with
               | ExpCAS => any r <- driver_cas_mpi o nalpha E_inactive E_core TA VA; ret (fst r, snd r, None)
               | ExpASCI => any r <- driver_asci_mpi o level nalpha E_inactive E_core TA VA (stream fs (k_wfn_out (d_asci o))); ret (fst r, [], snd r)
               end
             | JobMCSCF => any E <- driver_mcscf_mpi o norb nalpha E_core T V; ret (E, [], None)
             end;
    let '(E0, dets, wfn) := x in
    any f <- det (match d_fci_out o with
                  | [] => Ok None
                  | _ => do f <- write_fcidump show false norb T norb V norb E_core; Ok (Some f)
                  end);
    ret (mk_outcome E0 dets wfn f).
End DRIVERMPI.

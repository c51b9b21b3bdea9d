(** Model of the standalone driver, tests/standalone_driver.cxx, built without MPI. Files are
    functions from names to contents; console output is left out except for the printed
    determinants; timings and memory estimates are left out. Number literals of the defaults
    are exact. No proofs in this file. *)
From Coq Require Import Ascii String QArith Qcanon ZArith NArith Bool.
From Verif Require Import Base Bits SD Sums Ham Nondet Mem Text IO Dense Diis Davidson Mcscf Asci AsciRot Ini.
Local Open Scope nat_scope.

Inductive job := JobCI | JobMCSCF.
Inductive expansion := ExpCAS | ExpASCI.

(* standalone_driver.cxx:106-109 OPT_KEYWORD *)
Definition opt {A} (get : dict (dict text) -> text -> res A) (d : dict (dict text)) (key : string) (dflt : A) : res A :=
  do c <- contains_data d (lit key); if c then get d (lit key) else Ok dflt.

(* size_t arithmetic *)
Definition size_wrap (z : Z) : Z := (z mod 2 ^ 64)%Z.

(* standalone_driver.cxx:88-92: the required keywords *)
Definition driver_required (d : dict (dict text)) : res (text * Z) :=
  do fcidump <- get_string d (lit "CI.FCIDUMP");
  do nalpha <- get_size d (lit "CI.NALPHA");
  do nbeta <- get_size d (lit "CI.NBETA");
  if negb (nalpha =? nbeta)%Z then Err Throw else Ok (fcidump, nalpha).

(* standalone_driver.cxx:95-104; vectors are created with zeros *)
Definition driver_integrals (rnd : Q -> res Qc) (file : text) : res (nat * Qc * list Qc * list Qc) :=
  do norb <- read_fcidump_norb rnd file;
  do E_core <- read_fcidump_core rnd file;
  do T <- read_fcidump_1body_raw rnd file (repeat 0%Qc (norb * norb)) norb;
  do V <- read_fcidump_2body_raw rnd file (repeat 0%Qc (norb * norb * (norb * norb))) norb;
  Ok (norb, E_core, T, V).

(* standalone_driver.cxx:43-47, 111-128: at() throws for other words, which is turned into
   another exception *)
Definition driver_job (d : dict (dict text)) : res job :=
  do s <- opt get_string d "CI.JOB" (lit "MCSCF");
  if text_eq_dec s (lit "CI") then Ok JobCI else if text_eq_dec s (lit "MCSCF") then Ok JobMCSCF else Err Throw.
Definition driver_expansion (d : dict (dict text)) : res expansion :=
  do s <- opt get_string d "CI.EXPANSION" (lit "CAS");
  if text_eq_dec s (lit "CAS") then Ok ExpCAS else if text_eq_dec s (lit "ASCI") then Ok ExpASCI else Err Throw.

(* standalone_driver.cxx:130-149: n_inactive, n_active, n_virtual *)
Definition driver_space (d : dict (dict text)) (norb : nat) : res (Z * Z * Z) :=
  let norb := Z.of_nat norb in
  do n_inactive <- opt get_size d "CI.NINACTIVE" 0%Z;
  if (norb <=? n_inactive)%Z then Err Throw
  else
    do n_active <- opt get_size d "CI.NACTIVE" (size_wrap (norb - n_inactive));
    if (norb <? size_wrap (n_inactive + n_active))%Z then Err Throw
    else
      let n_virtual := size_wrap (norb - n_active - n_inactive) in
      if (32 <? n_active)%Z then Err Throw else Ok (n_inactive, n_active, n_virtual).

(* mcscf.hpp:15-30 and standalone_driver.cxx:151-166; numbers of type size_t as Z *)
Record mcscf_options := mk_mcscf_options {
  k_max_macro : Z; k_max_step : Qc; k_orb_tol : Qc; k_diis : bool; k_diis_start : Z; k_diis_nkeep : Z;
  k_ci_tol : Qc; k_ci_sub : Z; k_ci_matel : Qc
}.
Definition driver_mcscf (rnd : Q -> res Qc) (d : dict (dict text)) : res mcscf_options :=
  do a <- opt get_size d "MCSCF.MAX_MACRO_ITER" 100%Z;
  do b <- opt (get_double rnd) d "MCSCF.MAX_ORB_STEP" (Q2Qc (1 # 2));
  do c <- opt (get_double rnd) d "MCSCF.MCSCF_ORB_TOL" (Q2Qc (5 # 1000000));
  do e <- opt get_bool d "MCSCF.ENABLE_DIIS" true;
  do f <- opt get_size d "MCSCF.DIIS_START_ITER" 3%Z;
  do g <- opt get_size d "MCSCF.DIIS_NKEEP" 10%Z;
  do h <- opt (get_double rnd) d "MCSCF.CI_RES_TOL" (Q2Qc (1 # 100000000));
  do i <- opt get_size d "MCSCF.CI_MAX_SUB" 20%Z;
  do j <- opt (get_double rnd) d "MCSCF.CI_MATEL_TOL" (Q2Qc (1 # 4503599627370496));
  Ok (mk_mcscf_options a b c e f g h i j).
Definition mcscf_settings (o : mcscf_options) : Mcscf.settings :=
  Mcscf.mk_settings (Z.to_nat (k_max_macro o)) (k_max_step o) (k_orb_tol o) (k_diis o) (Z.to_nat (k_diis_start o)) (Z.to_nat (k_diis_nkeep o))
    (k_ci_tol o) (Z.to_nat (k_ci_sub o)) (k_ci_matel o).

(* determinant_search.hpp:34-51 and standalone_driver.cxx:168-192. grow_factor is read as int
   and converted to size_t; CONSTRAINT_LVL is used with MPI only, but has to be a number *)
Record asci_options := mk_asci_options {
  k_ntdets_max : Z; k_ntdets_min : Z; k_ncdets_max : Z; k_h_el_tol : Qc; k_prune : Qc; k_pair : Z;
  k_grow : Z; k_refine : Z; k_etol : Qc; k_rot : bool; k_rot_start : Z;
  k_wfn_in : text; k_wfn_out : text; k_E0 : option Qc
}.
Definition driver_asci (rnd : Q -> res Qc) (d : dict (dict text)) : res asci_options :=
  do a <- opt get_size d "ASCI.NTDETS_MAX" 100000%Z;
  do b <- opt get_size d "ASCI.NTDETS_MIN" 100%Z;
  do c <- opt get_size d "ASCI.NCDETS_MAX" 100%Z;
  do e <- opt (get_double rnd) d "ASCI.HAM_EL_TOL" (Q2Qc (1 # 100000000));
  do f <- opt (get_double rnd) d "ASCI.RV_PRUNE_TOL" (Q2Qc (1 # 100000000));
  do g <- opt get_size d "ASCI.PAIR_MAX_LIM" 500000000%Z;
  do h <- opt get_int d "ASCI.GROW_FACTOR" 8%Z;
  do i <- opt get_size d "ASCI.MAX_REFINE_ITER" 6%Z;
  do j <- opt (get_double rnd) d "ASCI.REFINE_ETOL" (Q2Qc (1 # 1000000));
  do k <- opt get_bool d "ASCI.GROW_WITH_ROT" false;
  do l <- opt get_size d "ASCI.ROT_SIZE_START" 1000%Z;
  do _ <- opt get_int d "ASCI.CONSTRAINT_LVL" 2%Z;
  do m <- opt get_string d "ASCI.WFN_FILE" [];
  do n <- opt get_string d "ASCI.WFN_OUT_FILE" [];
  do p <- opt (fun d q => do x <- get_double rnd d q; Ok (Some x)) d "ASCI.E0_WFN" None;
  Ok (mk_asci_options a b c e f g (size_wrap h) i j k l m n p).
Definition asci_settings (o : asci_options) : Asci.settings :=
  Asci.mk_settings (Z.to_nat (k_ntdets_max o)) (Z.to_nat (k_ntdets_min o)) (Z.to_nat (k_ncdets_max o)) (k_h_el_tol o) (k_prune o)
    (Z.to_nat (k_pair o)) false (Z.to_nat (k_grow o)) (Z.to_nat (k_refine o)) (k_etol o).

(* standalone_driver.cxx:216-231: those that have an effect *)
Record print_options := mk_print_options { k_dets : bool; k_dets_thr : Qc }.
Definition driver_print (rnd : Q -> res Qc) (d : dict (dict text)) : res print_options :=
  do _ <- opt get_bool d "PRINT.DAVIDSON" false;
  do _ <- opt get_bool d "PRINT.CI" false;
  do _ <- opt get_bool d "PRINT.MCSCF" true;
  do _ <- opt get_bool d "PRINT.DIIS" false;
  do _ <- opt get_bool d "PRINT.ASCI_SEARCH" false;
  do a <- opt get_bool d "PRINT.DETERMINANTS" false;
  do b <- opt (get_double rnd) d "PRINT.DETERMINANTS_THRES" (Q2Qc (1 # 100));
  Ok (mk_print_options a b).

(* all of standalone_driver.cxx:111-231 *)
Record driver_options := mk_driver_options {
  d_job : job; d_exp : expansion; d_ninactive : nat; d_nactive : nat; d_nvirtual : nat;
  d_rdm : text; d_fci_out : text; d_mcscf : mcscf_options; d_asci : asci_options; d_mp2 : bool; d_print : print_options
}.
Definition driver_setup (rnd : Q -> res Qc) (d : dict (dict text)) (norb : nat) : res driver_options :=
  do j <- driver_job d;
  do e <- driver_expansion d;
  do s <- driver_space d norb;
  let '(ni, na, nv) := s in
  do rdm <- opt get_string d "CI.RDMFILE" [];
  do out <- opt get_string d "CI.FCIDUMP_OUT" [];
  do m <- driver_mcscf rnd d;
  do a <- driver_asci rnd d;
  do mp2 <- opt get_bool d "MCSCF.MP2_GUESS" false;
  do p <- driver_print rnd d;
  Ok (mk_driver_options j e (Z.to_nat ni) (Z.to_nat na) (Z.to_nat nv) rdm out m a mp2 p).

(* what the driver leaves behind: the energy, printed determinants, written files *)
Record outcome := mk_outcome { out_E : Qc; out_dets : list (Qc * text); out_wfn : option text; out_fcidump : option text }.

Section DRIVER.
  Variables (root : Qc -> Qc) (syev : nat -> list Qc -> res (list Qc * list Qc)) (syev_ld : nat -> list Qc -> nat -> res (list Qc * list Qc))
            (gelss : nat -> list Qc -> list Qc -> res (list Qc)) (expm : nat -> list Qc -> res (list Qc))
            (rnd : Q -> res Qc) (show : Qc -> text) (dec : list N -> Qc).
  (* [fuel]: bound of the enumeration of determinants and of the growth; [dbg]: assertions;
     [fs], [fsb]: the files as text and as bytes *)
  Variables (fuel : nat) (dbg : bool) (fs : text -> option text) (fsb : text -> option (list N)).

  (* a stream that could not be opened has no lines *)
  Definition stream (name : text) : text := match fs name with Some f => f | None => [] end.

  (* standalone_driver.cxx:235-255; norb - nocc wraps around if there are more electrons than
     orbitals, and the arrays are then read outside *)
  Definition driver_orbitals (mp2 : bool) (norb nocc : nat) (T V : list Qc) : res (list Qc * list Qc) :=
    if mp2 then
      if norb <? nocc then Err UB
      else
        do x <- mp2_natural_orbitals syev_ld norb nocc (norb - nocc) T norb V norb (repeat 0%Qc (norb * norb)) norb;
        rotate_integrals norb (snd x) T V
    else Ok (T, V).

  (* standalone_driver.cxx:296-308 *)
  Definition driver_determinants (p : print_options) (na nalpha nbeta : nat) (C : list Qc) : res (list (Qc * text)) :=
    if k_dets p then
      do dets <- generate_hilbert_space fuel 64 na nalpha nbeta;
      do l <- mapM (fun i => do c <- at_ C i; Ok (if qlt (k_dets_thr p) (Qcabs c) then [(c, to_canonical_string 64 (nth i dets 0%N))] else [])) (seq 0 (List.length dets));
      Ok (concat l)
    else Ok [].

  (* standalone_driver.cxx:285-308; E0 += E_inactive + E_core *)
  Definition driver_cas (o : driver_options) (nalpha : nat) (E_inactive E_core : Qc) (TA VA : list Qc) : nd (Qc * list (Qc * text)) :=
    let na := d_nactive o in
    any r <- compute_casci_rdms root syev fuel 64 (mcscf_settings (d_mcscf o)) na nalpha nalpha TA VA (repeat 0%Qc (na * na)) (repeat 0%Qc (na * na * (na * na))) [];
    let '(E0, _, _, C) := r in
    any l <- det (driver_determinants (d_print o) na nalpha nalpha C);
    ret (E0 + (E_inactive + E_core), l)%Qc.

  (* standalone_driver.cxx:319-344: the wave function and energy the search starts from *)
  Definition file_energy (h : ints) (dets : list N) (C : list Qc) : res Qc :=
    foldM (seq 0 (List.length dets)) (fun E0 ii =>
      do d <- at_ dets ii;
      do tmp <- foldM (seq 0 (List.length dets)) (fun tmp jj =>
        do e <- at_ dets jj;
        do x <- matrix_element 64 h d e;
        do c <- at_ C jj;
        Ok (tmp + x * c)%Qc) 0%Qc;
      do c <- at_ C ii;
      Ok (E0 + c * tmp)%Qc) 0%Qc.
  Definition driver_guess (a : asci_options) (h : ints) (nalpha : nat) (E_inactive E_core : Qc) : res wfn_state :=
    match k_wfn_in a with
    | [] =>
      do D <- canonical_hf 64 nalpha nalpha;
      do E0 <- matrix_element 64 h D D;
      Ok (E0, [D], [1%Qc])
    | name =>
      do w <- read_wavefunction rnd 64 (stream name);
      let '(dets, C) := w in
      do E0 <- match k_E0 a with
               | None => file_energy h dets C
               | Some x => Ok (x - E_core - E_inactive)%Qc
               end;
      Ok (E0, dets, C)
    end.
  (* standalone_driver.cxx:311-364; the generator's integrals may be rotated by the growth *)
  Definition ci_diag_of (m : mcscf_options) (h : ints) : diag := fun wfn =>
    selected_ci_diag root syev 64 h wfn (k_ci_matel m) (Z.to_nat (k_ci_sub m)) (k_ci_tol m) [].
  Definition driver_asci_run (o : driver_options) (nalpha : nat) (E_inactive E_core : Qc) (TA VA : list Qc) (old : text) : nd (Qc * option text) :=
    let na := d_nactive o in let a := d_asci o in
    any h <- det (span_ints na TA VA);
    any s <- det (driver_guess a h nalpha E_inactive E_core);
    any g <- asci_grow_rot syev fuel dbg 64 na (asci_settings a) (mk_rot (k_rot a) (Z.to_nat (k_rot_start a))) (ci_diag_of (d_mcscf o)) (TA, VA) s;
    let '(s, TV) := g in
    any h <- det (span_ints na (fst TV) (snd TV));
    any s <- (if (k_refine a =? 0)%Z then ret s else asci_refine dbg 64 (asci_settings a) h (ci_diag_of (d_mcscf o) h) s);
    let '(E0, dets, C) := s in
    any w <- det (match k_wfn_out a with
                  | [] => Ok None
                  | _ => do f <- write_wavefunction show 64 na dets C old; Ok (Some f)
                  end);
    ret (E0 + (E_inactive + E_core), w)%Qc.

  (* standalone_driver.cxx:378-414; E(RDM) is only printed *)
  Definition driver_mcscf_run (o : driver_options) (norb nalpha : nat) (E_core : Qc) (T V : list Qc) : nd Qc :=
    let na := d_nactive o in let ni := d_ninactive o in
    any D <- det (match d_rdm o with
                  | [] => Ok (repeat 0%Qc (na * na), repeat 0%Qc (na * na * (na * na)))
                  | name =>
                    do x <- read_rdms_binary dec (fsb name) norb (repeat 0%Qc (norb * norb)) norb (repeat 0%Qc (norb * norb * (norb * norb))) norb;
                    do A1 <- active_submatrix_1body na ni (fst x) norb (repeat 0%Qc (na * na)) na;
                    do A2 <- active_subtensor_2body na ni (snd x) norb (repeat 0%Qc (na * na * (na * na))) na;
                    Ok (A1, A2)
                  end);
    any r <- casscf_diis root syev gelss expm fuel (mcscf_settings (d_mcscf o)) nalpha nalpha norb ni na (d_nvirtual o) E_core T norb V norb na na (fst D) (snd D);
    let '(E, _, _, _) := r in ret E.

  (* standalone_driver.cxx:82-420; [input] is the name of the input file, opts.at(1) *)
  Definition driver (input : option text) : nd outcome :=
    any name <- det (match input with Some n => Ok n | None => Err Throw end);
    any d <- det (ini_parse (fs name));
    any r <- det (driver_required d);
    let '(fcidump, nalpha) := r in
    any ints <- det (driver_integrals rnd (stream fcidump));
    let '(norb, E_core, T, V) := ints in
    any o <- det (driver_setup rnd d norb);
    let nalpha := Z.to_nat nalpha in
    any TV <- det (driver_orbitals (d_mp2 o) norb (d_ninactive o + nalpha) T V);
    let '(T, V) := TV in
    let na := d_nactive o in let ni := d_ninactive o in
    any H <- det (active_hamiltonian norb na ni T norb V norb (repeat 0%Qc (norb * norb)) norb (repeat 0%Qc (na * na)) na (repeat 0%Qc (na * na * (na * na))) na);
    let '(Fi, TA, VA) := H in
    any E_inactive <- det (inactive_energy ni T norb Fi norb);
    any x <- match d_job o with
             | JobCI =>
               match d_exp o with
               | ExpCAS => any r <- driver_cas o nalpha E_inactive E_core TA VA; ret (fst r, snd r, None)
               | ExpASCI => any r <- driver_asci_run o nalpha E_inactive E_core TA VA (stream (k_wfn_out (d_asci o))); ret (fst r, [], snd r)
               end
             | JobMCSCF => any E <- driver_mcscf_run o norb nalpha E_core T V; ret (E, [], None)
             end;
    let '(E0, dets, wfn) := x in
    any f <- det (match d_fci_out o with
                  | [] => Ok None
                  | _ => do f <- write_fcidump show false norb T norb V norb E_core; Ok (Some f)
                  end);
    ret (mk_outcome E0 dets wfn f).
End DRIVER.

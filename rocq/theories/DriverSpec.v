(** What the standalone driver's input files ask for, in terms of what IniSpec says of an
    input file and IOSpec of an FCIDUMP file. *)
From Coq Require Import Ascii String QArith Qcanon ZArith NArith Bool.
From Verif Require Import Base Bits SD Spec Sums FockSpec Ham Text IO IOSpec Ini IniSpec SlaterCondon DenseSpec DiisSpec DavSpec McscfSpec AsciSpec FreezeSpec Driver.
Local Open Scope nat_scope.

(** ** keywords *)
(** the file called [name] is an input file with the content [c] *)
Definition input_file (fs : text -> option text) (name : text) (c : content) : Prop :=
  exists f is, fs name = Some f /\ Forall2 line_says (lines f) is /\ laid_out false false is /\ c = contents is.
(** a keyword has the value the file gives it, and its default if it is not in the file *)
Definition chosen {A} (c : content) (s k : string) (reads : text -> A -> Prop) (dflt x : A) : Prop :=
  match c_value c (lit s) (lit k) with Some t => reads t x | None => x = dflt end.
Definition given {A} (c : content) (s k : string) (reads : text -> A -> Prop) (x : A) : Prop :=
  exists t, c_value c (lit s) (lit k) = Some t /\ reads t x.
(** how values are written: numbers as the library's conversions read them *)
Definition a_size (t : text) (n : Z) : Prop := stoul t = Ok n.
Definition an_int (t : text) (n : Z) : Prop := stoi t = Ok n.
Definition a_double (rnd : Q -> res Qc) (t : text) (x : Qc) : Prop := stod rnd t = Ok x.
Definition a_switch (t : text) (b : bool) : Prop := b = true <-> t = lit "TRUE" \/ t = lit "ON".
Definition a_text (t x : text) : Prop := x = t.
Definition a_job (t : text) (j : job) : Prop := (t = lit "CI" /\ j = JobCI) \/ (t = lit "MCSCF" /\ j = JobMCSCF).
Definition an_expansion (t : text) (e : expansion) : Prop := (t = lit "CAS" /\ e = ExpCAS) \/ (t = lit "ASCI" /\ e = ExpASCI).
(** the FCIDUMP file and the number of electrons of each spin *)
Definition asks_for (c : content) (fcidump : text) (nel : Z) : Prop :=
  given c "CI" "FCIDUMP" a_text fcidump /\ given c "CI" "NALPHA" a_size nel /\ given c "CI" "NBETA" a_size nel.
(** everything else *)
Definition mcscf_as_asked (rnd : Q -> res Qc) (c : content) (m : mcscf_options) : Prop :=
  chosen c "MCSCF" "MAX_MACRO_ITER" a_size 100%Z (k_max_macro m) /\
  chosen c "MCSCF" "MAX_ORB_STEP" (a_double rnd) (Q2Qc (1 # 2)) (k_max_step m) /\
  chosen c "MCSCF" "MCSCF_ORB_TOL" (a_double rnd) (Q2Qc (5 # 1000000)) (k_orb_tol m) /\
  chosen c "MCSCF" "ENABLE_DIIS" a_switch true (k_diis m) /\
  chosen c "MCSCF" "DIIS_START_ITER" a_size 3%Z (k_diis_start m) /\
  chosen c "MCSCF" "DIIS_NKEEP" a_size 10%Z (k_diis_nkeep m) /\
  chosen c "MCSCF" "CI_RES_TOL" (a_double rnd) (Q2Qc (1 # 100000000)) (k_ci_tol m) /\
  chosen c "MCSCF" "CI_MAX_SUB" a_size 20%Z (k_ci_sub m) /\
  chosen c "MCSCF" "CI_MATEL_TOL" (a_double rnd) (Q2Qc (1 # 4503599627370496)) (k_ci_matel m). (* 2^-52 *)
Definition asci_as_asked (rnd : Q -> res Qc) (c : content) (a : asci_options) : Prop :=
  chosen c "ASCI" "NTDETS_MAX" a_size 100000%Z (k_ntdets_max a) /\
  chosen c "ASCI" "NTDETS_MIN" a_size 100%Z (k_ntdets_min a) /\
  chosen c "ASCI" "NCDETS_MAX" a_size 100%Z (k_ncdets_max a) /\
  chosen c "ASCI" "HAM_EL_TOL" (a_double rnd) (Q2Qc (1 # 100000000)) (k_h_el_tol a) /\
  chosen c "ASCI" "RV_PRUNE_TOL" (a_double rnd) (Q2Qc (1 # 100000000)) (k_prune a) /\
  chosen c "ASCI" "PAIR_MAX_LIM" a_size 500000000%Z (k_pair a) /\
  (* a negative number wraps around *)
  (exists g, chosen c "ASCI" "GROW_FACTOR" an_int 8%Z g /\ k_grow a = (if g <? 0 then g + 2 ^ 64 else g)%Z) /\
  chosen c "ASCI" "MAX_REFINE_ITER" a_size 6%Z (k_refine a) /\
  chosen c "ASCI" "REFINE_ETOL" (a_double rnd) (Q2Qc (1 # 1000000)) (k_etol a) /\
  chosen c "ASCI" "GROW_WITH_ROT" a_switch false (k_rot a) /\
  chosen c "ASCI" "ROT_SIZE_START" a_size 1000%Z (k_rot_start a) /\
  (exists l, chosen c "ASCI" "CONSTRAINT_LVL" an_int 2%Z l) /\
  chosen c "ASCI" "WFN_FILE" a_text [] (k_wfn_in a) /\
  chosen c "ASCI" "WFN_OUT_FILE" a_text [] (k_wfn_out a) /\
  chosen c "ASCI" "E0_WFN" (fun t y => exists x, a_double rnd t x /\ y = Some x) None (k_E0 a).
Definition configured (rnd : Q -> res Qc) (c : content) (norb : nat) (o : driver_options) : Prop :=
  chosen c "CI" "JOB" a_job JobMCSCF (d_job o) /\
  chosen c "CI" "EXPANSION" an_expansion ExpCAS (d_exp o) /\
  chosen c "CI" "NINACTIVE" a_size 0%Z (Z.of_nat (d_ninactive o)) /\
  chosen c "CI" "NACTIVE" a_size (Z.of_nat (norb - d_ninactive o)) (Z.of_nat (d_nactive o)) /\
  d_ninactive o + d_nactive o + d_nvirtual o = norb /\ d_ninactive o < norb /\ d_nactive o <= 32 /\
  chosen c "CI" "RDMFILE" a_text [] (d_rdm o) /\
  chosen c "CI" "FCIDUMP_OUT" a_text [] (d_fci_out o) /\
  mcscf_as_asked rnd c (d_mcscf o) /\ asci_as_asked rnd c (d_asci o) /\
  chosen c "MCSCF" "MP2_GUESS" a_switch false (d_mp2 o) /\
  chosen c "PRINT" "DETERMINANTS" a_switch false (k_dets (d_print o)) /\
  chosen c "PRINT" "DETERMINANTS_THRES" (a_double rnd) (Q2Qc (1 # 100)) (k_dets_thr (d_print o)).

(** ** integrals *)
(** the file called [name] is an FCIDUMP file with the data [es] *)
Definition fcidump_file (rnd : Q -> res Qc) (fs : text -> option text) (name : text) (es : list integral) : Prop :=
  exists f, fs name = Some f /\ data_lines rnd (lines f) es /\ forall e, In e es -> proper e.
Definition file_T (es : list integral) (p q : nat) : Qc := last_value (fun e => one_at e p q) es 0%Qc.
Definition file_V (es : list integral) (p q r s : nat) : Qc := last_value (fun e => two_at e p q r s) es 0%Qc.

(** the input file [name] asks for a calculation with [ne] electrons of each spin, the integrals
    [es] and the options [o] *)
Definition asked (rnd : Q -> res Qc) (fs : text -> option text) (name : text) (ne : nat) (es : list integral) (o : driver_options) : Prop :=
  exists c fname, input_file fs name c /\ asks_for c fname (Z.of_nat ne) /\ fcidump_file rnd fs fname es /\ configured rnd c (max_index es) o.

(** ** results *)
(** active-space determinants [dets] with coefficients [Y] of length one; [E] is the energy of
    this wave function together with the doubly occupied inactive orbitals, in the Hamiltonian
    of all [no] orbitals with the integrals [T], [V] (and lies above its spectrum) *)
Definition wave_function (W2 no ni na ne : nat) (T : nat -> nat -> Qc) (V : nat -> nat -> nat -> nat -> Qc) (dets : list N) (Y : list Qc) (E : Qc) : Prop :=
  valid_dets 64 na ne ne dets /\ length Y = length dets /\ dot (length dets) Y Y = 1%Qc /\
  expectation (length dets) (ci_matrix W2 (mk_ints no T V) 0%Qc (map (freeze 64 W2 ni) dets)) Y = E /\
  frozen_state W2 no ni (ni + na) (ni + ne) (ni + ne) T V E.
(** a determinant is drawn as one character per orbital *)
Definition drawn (b : N) (t : text) : Prop :=
  length t = 32 /\ forall p, p < 32 -> nth p t "0"%char =
    (if tb (alpha 64 b) p then if tb (beta 64 b) p then "2" else "u" else if tb (beta 64 b) p then "d" else "0")%char.
(** the determinants whose coefficients exceed [thr], with their coefficients *)
Definition printed (thr : Qc) (dets : list N) (Y : list Qc) (l : list (Qc * text)) : Prop :=
  Forall2 (fun yb ct => fst ct = fst yb /\ drawn (snd yb) (snd ct)) (filter (fun yb => qlt thr (Qcabs (fst yb))) (combine Y dets)) l.
(** the search starts from one determinant, or from a normalised wave function in a file whose
    energy is not given; [n0] is the number of determinants *)
Definition starting_point (rnd : Q -> res Qc) (fs : text -> option text) (a : asci_options) (na ne n0 : nat) : Prop :=
  (k_wfn_in a = [] /\ n0 = 1) \/
  (exists f dets C, k_wfn_in a <> [] /\ k_E0 a = None /\ fs (k_wfn_in a) = Some f /\ read_wavefunction rnd 64 f = Ok (dets, C) /\
     dets <> [] /\ valid_dets 64 na ne ne dets /\ dot (length dets) C C = 1%Qc /\ n0 = length dets).
(** contract of the eigensolver with a leading dimension: orthonormal eigenvectors *)
Definition orthonormal_vectors (syev : nat -> list Qc -> nat -> res (list Qc * list Qc)) : Prop :=
  forall k M ld C w, syev k M ld = Ok (C, w) -> length M = k * ld -> symmetric2 k (at2 M ld) -> length C = k * ld /\ orthogonal k (at2 C ld).
(** what a CASSCF neglects: matrix elements up to [tol], and pairs of determinants whose
    coefficients have a product of at most 10^-16 *)
Definition neglected (ni na : nat) (T : nat -> nat -> Qc) (V : nat -> nat -> nat -> nat -> Qc) (tol : Qc) (dets : list N) : Qc :=
  Sigma (length dets) (fun i => Sigma (length dets) (fun j =>
    tol + Q2Qc (1 # 10000000000000000) * Qcabs (ham 64 na (active_T ni T V) (active_V ni V) (nth i dets 0%N) (nth j dets 0%N))))%Qc.

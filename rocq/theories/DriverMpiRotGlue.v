(** C73: ASCI with orbital rotations on several ranks, in terms of what the input files ask for. *)
From Coq Require Import Ascii String QArith Qcanon ZArith NArith Bool.
From Verif Require Import Base Bits SD Spec Sums FockSpec Ham Nondet Mem Text IO IOSpec IOGlue Dense DenseSpec DiisSpec Diis Davidson DavSpec DavProofs2 DavProofs5 DavProofs8 DavProofs14 DavEx Mcscf McscfSpec McscfEx CasciSpec Asci AsciSpec AsciRot AsciRotSpec AsciRotPar
  FreezeSpec Ini IniSpec IniGlue Driver DriverSpec DriverProofs DriverProofs2 DriverProofs3 DriverProofs4 DriverGlue DriverEx DriverRotEx DriverMpi DriverMpiProofs DriverMpiProofs2 DriverMpiGlue DriverMpiRot.
Local Open Scope nat_scope.
Local Open Scope string_scope.
Local Open Scope list_scope.

Section GLUE.
  Variables (root : Qc -> Qc) (syev : nat -> list Qc -> res (list Qc * list Qc)) (syev_ld : nat -> list Qc -> nat -> res (list Qc * list Qc))
            (gelss : nat -> list Qc -> list Qc -> res (list Qc)) (expm : nat -> list Qc -> res (list Qc))
            (rnd : Q -> res Qc) (show : Qc -> text) (dec : list N -> Qc).
  Variables (P : nat) (fs : text -> option text) (fsb : text -> option (list N)) (name : text) (ne : nat) (es : list integral) (o : driver_options).
  Hypothesis HA : asked rnd fs name ne es o.
  Local Notation run dbg g fuel := (driver_mpi root syev syev_ld gelss expm rnd show dec P g fuel dbg fs fsb (Some name)).
  Local Notation no := (max_index es).
  Local Notation ni := (d_ninactive o).
  Local Notation na := (d_nactive o).
  Lemma asci_rot_mpi n0 dbg : 1 < P -> d_job o = JobCI -> d_exp o = ExpASCI -> (d_mp2 o = true -> orthonormal_vectors syev_ld) -> 0 < na -> ne <= na -> (0 <= k_ci_matel (d_mcscf o))%Qc ->
    exact_root root -> eigensolver syev -> all_eigenpairs syev ->
    (dbg = true -> ne < na) -> (1 <= k_grow (d_asci o))%Z -> starting_point rnd fs (d_asci o) na ne n0 ->
    (Z.max (Z.of_nat n0) (k_ntdets_max (d_asci o)) * Z.of_nat P < 2 ^ 31)%Z ->
    forall W2 g fuel out, no <= W2 / 2 -> run dbg g fuel (Ok out) ->
    exists U T V Ua TA VA dets Y E D Z, rotated no U (file_T es) (file_V es) T V /\ (d_mp2 o = false -> T = file_T es /\ V = file_V es) /\
      rotated na Ua (active_T ni T V) (active_V ni V) TA VA /\
      valid_dets 64 na ne ne dets /\ length dets = Nat.max n0 (Z.to_nat (k_ntdets_max (d_asci o))) /\ length Y = length dets /\ dot (length dets) Y Y = 1%Qc /\
      E = (core_energy ni T V + expectation (length dets) (ci_matrix 64 (mk_ints na TA VA) 0%Qc dets) Y)%Qc /\
      whole_space 64 na ne ne D /\ wave_function W2 no ni na ne T V D Z E /\
      (Qcabs (out_E out - (first_core es + E)) <= inject (length dets * length dets) * k_ci_matel (d_mcscf o))%Qc /\
      out_dets out = [] /\ (k_wfn_out (d_asci o) = [] -> out_wfn out = None) /\
      (k_wfn_out (d_asci o) <> [] -> (0 < k_refine (d_asci o))%Z -> (forall v, In v Y -> prints show rnd v) ->
         exists f, out_wfn out = Some f /\ read_wavefunction rnd 64 f = Ok (dets, Y)).
  Proof.
    destruct HA as (c & fname & F & A & G & C). intros HP J X M HN L T R S Al D Gr SP HZ.
    pose proof (asci_rot_mpi_run root syev syev_ld gelss expm rnd show dec P dbg fs fsb name fname c (Z.of_nat ne) es o F A G C J M ltac:(rewrite Nat2Z.id; exact L) T R S Al HN HP n0 X) as K.
    rewrite Nat2Z.id in K. exact (K D Gr SP HZ).
  Qed.
End GLUE.

(** ** a run on two ranks *)
Definition dr_mrot_in : text := ini_file (["[CI]"; "JOB = CI"; "EXPANSION = ASCI"] ++ dr_common ++ dr_solver ++
  ["[ASCI]"; "NTDETS_MAX = 1"; "PAIR_MAX_LIM = 1000"; "MAX_REFINE_ITER = 0"; "GROW_WITH_ROT = ON"; "ROT_SIZE_START = 2"]).
Definition dr_mrot_is : list item := [Heading (lit "CI"); Entry 0 (lit "JOB") (lit "CI"); Entry 0 (lit "EXPANSION") (lit "ASCI")] ++ dr_common_is ++
  [Heading (lit "ASCI"); Entry 0 (lit "NTDETS_MAX") (lit "1"); Entry 0 (lit "PAIR_MAX_LIM") (lit "1000"); Entry 0 (lit "MAX_REFINE_ITER") (lit "0"); Entry 0 (lit "GROW_WITH_ROT") (lit "ON"); Entry 0 (lit "ROT_SIZE_START") (lit "2")].
Lemma dr_mrot_says : Forall2 line_says (lines dr_mrot_in) dr_mrot_is.
Proof.
  change (lines dr_mrot_in) with (map lit (["[CI]"; "JOB = CI"; "EXPANSION = ASCI"] ++ dr_common ++ dr_solver ++
    ["[ASCI]"; "NTDETS_MAX = 1"; "PAIR_MAX_LIM = 1000"; "MAX_REFINE_ITER = 0"; "GROW_WITH_ROT = ON"; "ROT_SIZE_START = 2"])).
  cbn [map app dr_common dr_solver]. unfold dr_mrot_is, dr_common_is. cbn [app]. sayings.
Qed.
Definition dr_mrot_a : asci_options :=
  mk_asci_options 1 100 100 (Q2Qc (1 # 100000000)) (Q2Qc (1 # 100000000)) 1000 8 0 (Q2Qc (1 # 1000000)) true 2 [] [] None.
Definition dr_mrot_o : driver_options := mk_driver_options JobCI ExpASCI 1 2 0 [] [] dr_ci dr_mrot_a false (mk_print_options false (Q2Qc (1 # 100))).
Lemma dr_mrot_conf : configured exact (contents dr_mrot_is) 3 dr_mrot_o.
Proof. config; cbn; lia. Qed.
Lemma dr_mrot_asked : asked exact (dr_fs dr_mrot_in) (lit "in.ini") 1 dr_es dr_mrot_o.
Proof. apply (dr_asked dr_mrot_in dr_mrot_is); [exact dr_mrot_says|vm_compute; tauto|vm_compute; reflexivity..|exact dr_mrot_conf]. Qed.
Lemma dr_mrot_mpi_run g : exists out, driver_mpi ex_root ro_syev no_syev_ld no_gelss ex_expm exact ex_show dec1 2 g 5 true (dr_fs dr_mrot_in) no_fsb (Some (lit "in.ini")) (Ok out) /\
  out_E out = Q2Qc (-9 # 2) /\ out_dets out = [] /\ out_wfn out = None.
Proof.
  exists (mk_outcome (0 + (z (-5) + Q2Qc (1 # 2)))%Qc [] None None). split.
  - eapply (back_mpi ex_root ro_syev no_syev_ld no_gelss ex_expm exact ex_show dec1 2 true (dr_fs dr_mrot_in) no_fsb (lit "in.ini") (lit "ints.dump") dr_dump (contents dr_mrot_is) (Z.of_nat 1) dr_es dr_mrot_o).
    + exists dr_mrot_in, dr_mrot_is. split; [reflexivity|]. split; [exact dr_mrot_says|]. split; [vm_compute; tauto|reflexivity].
    + apply dr_asks; vm_compute; reflexivity.
    + exists dr_dump. split; [reflexivity|exact dr_data].
    + config; cbn; lia.
    + reflexivity.
    + vm_compute. reflexivity.
    + exact dr_ints.
    + reflexivity.
    + exact dr_H.
    + exact dr_Ei.
    + reflexivity.
    + reflexivity.
    + reflexivity.
    + unfold driver_asci_mpi. cbv zeta. apply (det_intro _ _ mol4); [reflexivity|]. eapply det_intro; [exact dr_guess|].
      right. exists (0%Qc, [4294967297%N], [1%Qc], (dTA, dVA)). split; [reflexivity|]. cbv iota beta. cbn [fst snd]. apply (det_intro _ _ mol4); [reflexivity|].
      right. exists (0%Qc, [4294967297%N], [1%Qc]). split; [reflexivity|]. cbv iota beta. apply (det_intro _ _ None); [reflexivity|]. reflexivity.
    + reflexivity.
  - split; [apply Qc_is_canon; vm_compute; reflexivity|]. split; reflexivity.
Qed.
Lemma rot_mpi_example : asked exact (dr_fs dr_mrot_in) (lit "in.ini") 1 dr_es dr_mrot_o /\ d_job dr_mrot_o = JobCI /\ d_exp dr_mrot_o = ExpASCI /\
  d_mp2 dr_mrot_o = false /\ 1 < d_nactive dr_mrot_o /\ k_ci_matel (d_mcscf dr_mrot_o) = 0%Qc /\ exact_root ex_root /\ eigensolver ro_syev /\ all_eigenpairs ro_syev /\
  k_rot (d_asci dr_mrot_o) = true /\ (1 <= k_grow (d_asci dr_mrot_o))%Z /\ starting_point exact (dr_fs dr_mrot_in) (d_asci dr_mrot_o) (d_nactive dr_mrot_o) 1 1 /\
  (Z.max (Z.of_nat 1) (k_ntdets_max (d_asci dr_mrot_o)) * Z.of_nat 2 < 2 ^ 31)%Z /\
  forall g, exists out, driver_mpi ex_root ro_syev no_syev_ld no_gelss ex_expm exact ex_show dec1 2 g 5 true (dr_fs dr_mrot_in) no_fsb (Some (lit "in.ini")) (Ok out) /\
    out_E out = Q2Qc (-9 # 2) /\ out_dets out = [] /\ out_wfn out = None.
Proof.
  split; [exact dr_mrot_asked|]. split; [reflexivity|]. split; [reflexivity|]. split; [reflexivity|]. split; [cbn; lia|]. split; [reflexivity|]. split; [exact ex_root_exact|]. split; [exact ro_solves|]. split; [exact ro_all|].
  split; [reflexivity|]. split; [cbn; lia|]. split; [left; split; reflexivity|]. split; [cbn; lia|]. exact dr_mrot_mpi_run.
Qed.

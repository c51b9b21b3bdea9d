(** C66, C67: the driver's ASCI jobs with rotations, in terms of what its input files ask for. *)
From Coq Require Import Ascii String QArith Qcanon ZArith NArith Bool.
From Verif Require Import Base Bits SD Spec Sums FockSpec Ham Nondet Mem Text IO IOSpec IOGlue Dense DenseSpec DiisSpec Diis Davidson DavSpec DavEx Mcscf McscfSpec McscfEx CasciSpec Asci AsciSpec AsciRot AsciRotSpec
  FreezeSpec Ini IniSpec IniGlue Driver DriverSpec DriverEx RotInvSpec RotInvGlue2 DriverRot DriverRotEx.
Local Open Scope nat_scope.
Section GLUE.
  Variables (root : Qc -> Qc) (syev : nat -> list Qc -> res (list Qc * list Qc)) (syev_ld : nat -> list Qc -> nat -> res (list Qc * list Qc))
            (gelss : nat -> list Qc -> list Qc -> res (list Qc)) (expm : nat -> list Qc -> res (list Qc))
            (rnd : Q -> res Qc) (show : Qc -> text) (dec : list N -> Qc).
  Variables (dbg : bool) (fs : text -> option text) (fsb : text -> option (list N)).
  Local Notation run fuel := (driver root syev syev_ld gelss expm rnd show dec fuel dbg fs fsb).
  Variables (name : text) (ne : nat) (es : list integral) (o : driver_options).
  Hypothesis HA : asked rnd fs name ne es o.
  Local Notation no := (max_index es).
  Local Notation ni := (d_ninactive o).
  Local Notation na := (d_nactive o).
  Lemma asci_rot_energy n0 : d_job o = JobCI -> d_exp o = ExpASCI -> (d_mp2 o = true -> orthonormal_vectors syev_ld) -> 0 < na -> ne <= na -> (0 <= k_ci_matel (d_mcscf o))%Qc -> exact_root root -> eigensolver syev -> all_eigenpairs syev ->
    (dbg = true -> ne < na) -> (2 <= k_grow (d_asci o))%Z -> starting_point rnd fs (d_asci o) na ne n0 ->
    forall W2 fuel out, no <= W2 / 2 -> run fuel (Some name) (Ok out) ->
    exists U T V Ua TA VA dets Y E D Z, rotated no U (file_T es) (file_V es) T V /\ (d_mp2 o = false -> T = file_T es /\ V = file_V es) /\
      rotated na Ua (active_T ni T V) (active_V ni V) TA VA /\
      valid_dets 64 na ne ne dets /\ length dets = Nat.max n0 (Z.to_nat (k_ntdets_max (d_asci o))) /\ length Y = length dets /\ dot (length dets) Y Y = 1%Qc /\
      E = (core_energy ni T V + expectation (length dets) (ci_matrix 64 (mk_ints na TA VA) 0%Qc dets) Y)%Qc /\
      whole_space 64 na ne ne D /\ wave_function W2 no ni na ne T V D Z E /\
      (Qcabs (out_E out - (first_core es + E)) <= inject (length dets * length dets) * k_ci_matel (d_mcscf o))%Qc /\
      out_dets out = [] /\ (k_wfn_out (d_asci o) = [] -> out_wfn out = None) /\
      (k_wfn_out (d_asci o) <> [] -> (0 < k_refine (d_asci o))%Z -> (forall v, In v Y -> prints show rnd v) -> (N.of_nat (length dets) < 2 ^ 31)%N ->
         exists f, out_wfn out = Some f /\ read_wavefunction rnd 64 f = Ok (dets, Y)).
  Proof.
    destruct HA as (c & fname & F & A & G & C). intros J X M P L T R S Al D Gr St.
    pose proof (asci_rot_run root syev syev_ld gelss expm rnd show dec dbg fs fsb name fname c (Z.of_nat ne) es o F A G C J M ltac:(rewrite Nat2Z.id; exact L) T R S Al P n0 X) as K.
    rewrite Nat2Z.id in K. exact (K D Gr St).
  Qed.
  Lemma asci_rot_full n0 : d_job o = JobCI -> d_exp o = ExpASCI -> (d_mp2 o = true -> orthonormal_vectors syev_ld) -> 0 < na -> ne <= na -> (0 <= k_ci_matel (d_mcscf o))%Qc -> exact_root root -> eigensolver syev -> all_eigenpairs syev ->
    (dbg = true -> ne < na) -> (2 <= k_grow (d_asci o))%Z -> starting_point rnd fs (d_asci o) na ne n0 ->
    forall W2 fuel out, no <= W2 / 2 -> run fuel (Some name) (Ok out) ->
    exists E, full_state W2 no (ni + ne) (ni + ne) (file_T es) (file_V es) E /\
      let m := Nat.max n0 (Z.to_nat (k_ntdets_max (d_asci o))) in
      (Qcabs (out_E out - (first_core es + E)) <= inject (m * m) * k_ci_matel (d_mcscf o))%Qc.
  Proof.
    intros J X M P L T R S Al D Gr St W2 fuel out H2 H.
    destruct (asci_rot_energy n0 J X M P L T R S Al D Gr St W2 fuel out H2 H) as (U & gT & gV & Ua & TA & VA & dets & Y & E & DD & Z & RO & _ & _ & _ & LD & _ & _ & _ & _ & WF & B & _).
    exists E. split; [exact (wave_full ne es o W2 U gT gV DD Z E H2 RO WF)|]. cbv zeta. rewrite <- LD. exact B.
  Qed.
End GLUE.
Lemma rot_example : asked exact (dr_fs dr_rot_in) (lit "in.ini") 1 dr_es dr_rot_o /\ d_job dr_rot_o = JobCI /\ d_exp dr_rot_o = ExpASCI /\
  d_mp2 dr_rot_o = false /\ 1 < d_nactive dr_rot_o /\ k_ci_matel (d_mcscf dr_rot_o) = 0%Qc /\ exact_root ex_root /\ eigensolver ro_syev /\ all_eigenpairs ro_syev /\
  k_rot (d_asci dr_rot_o) = true /\ (2 <= k_grow (d_asci dr_rot_o))%Z /\ starting_point exact (dr_fs dr_rot_in) (d_asci dr_rot_o) (d_nactive dr_rot_o) 1 1 /\
  exists out, driver ex_root ro_syev no_syev_ld no_gelss ex_expm exact ex_show dec1 5 true (dr_fs dr_rot_in) no_fsb (Some (lit "in.ini")) (Ok out) /\
    out_E out = Q2Qc (-27 # 2) /\ out_dets out = [] /\ out_wfn out = None /\ out_fcidump out = None.
Proof.
  split; [exact dr_rot_asked|]. split; [reflexivity|]. split; [reflexivity|]. split; [reflexivity|]. split; [cbn; lia|]. split; [reflexivity|]. split; [exact ex_root_exact|]. split; [exact ro_solves|]. split; [exact ro_all|].
  split; [reflexivity|]. split; [cbn; lia|]. split; [left; split; reflexivity|]. exact dr_rot_run.
Qed.

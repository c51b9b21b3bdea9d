(** C66, C67: a run of the driver whose ASCI search rotates the orbitals. *)
From Coq Require Import Ascii String QArith Qcanon ZArith NArith Bool Lqa.
From Verif Require Import Base Bits CsrView SparseSpec SD Spec Sums FockSpec SlaterCondon Ham HamProofs HamProofs5 PropsHamGlue Nondet Mem MemProofs Text TextProofs IO IOSpec IOGlue Dense DenseSpec DenseProofs DiisSpec Diis Davidson DavSpec DavProofs2 DavProofs5 DavProofs8 DavProofs14 DavEx Mcscf McscfSpec McscfEx CasciSpec McscfGlue2
  Asci AsciSpec AsciSort AsciSearch AsciSearch2 AsciSearch3 AsciIter AsciGlue AsciRot AsciRotSpec AsciRotProofs AsciRotProofs2
  FreezeSpec Ini IniSpec IniGlue Driver DriverSpec DriverProofs DriverProofs2 DriverProofs3 DriverProofs4 DriverGlue DriverEx.
Local Open Scope nat_scope.
Local Open Scope string_scope.
Local Open Scope list_scope.

Definition dr_rot_in : text := ini_file (["[CI]"; "JOB = CI"; "EXPANSION = ASCI"] ++ dr_common ++ dr_solver ++
  ["[ASCI]"; "NTDETS_MAX = 2"; "PAIR_MAX_LIM = 1000"; "MAX_REFINE_ITER = 0"; "GROW_WITH_ROT = ON"; "ROT_SIZE_START = 2"]).
Definition dr_rot_is : list item := [Heading (lit "CI"); Entry 0 (lit "JOB") (lit "CI"); Entry 0 (lit "EXPANSION") (lit "ASCI")] ++ dr_common_is ++
  [Heading (lit "ASCI"); Entry 0 (lit "NTDETS_MAX") (lit "2"); Entry 0 (lit "PAIR_MAX_LIM") (lit "1000"); Entry 0 (lit "MAX_REFINE_ITER") (lit "0"); Entry 0 (lit "GROW_WITH_ROT") (lit "ON"); Entry 0 (lit "ROT_SIZE_START") (lit "2")].
Lemma dr_rot_says : Forall2 line_says (lines dr_rot_in) dr_rot_is.
Proof.
  change (lines dr_rot_in) with (map lit (["[CI]"; "JOB = CI"; "EXPANSION = ASCI"] ++ dr_common ++ dr_solver ++
    ["[ASCI]"; "NTDETS_MAX = 2"; "PAIR_MAX_LIM = 1000"; "MAX_REFINE_ITER = 0"; "GROW_WITH_ROT = ON"; "ROT_SIZE_START = 2"])).
  cbn [map app dr_common dr_solver]. unfold dr_rot_is, dr_common_is. cbn [app]. sayings.
Qed.
Definition dr_rot_a : asci_options :=
  mk_asci_options 2 100 100 (Q2Qc (1 # 100000000)) (Q2Qc (1 # 100000000)) 1000 8 0 (Q2Qc (1 # 1000000)) true 2 [] [] None.
Definition dr_rot_o : driver_options := mk_driver_options JobCI ExpASCI 1 2 0 [] [] dr_ci dr_rot_a false (mk_print_options false (Q2Qc (1 # 100))).
Lemma dr_rot_conf : configured exact (contents dr_rot_is) 3 dr_rot_o.
Proof. config; cbn; lia. Qed.
Lemma dr_rot_asked : asked exact (dr_fs dr_rot_in) (lit "in.ini") 1 dr_es dr_rot_o.
Proof. apply (dr_asked dr_rot_in dr_rot_is); [exact dr_rot_says|vm_compute; tauto|vm_compute; reflexivity..|exact dr_rot_conf]. Qed.

(** the eigensolver: the projected Hamiltonian and the negative density *)
Definition ro_ordm : list Qc := [Q2Qc (- 32 # 25); 0%Qc; 0%Qc; Q2Qc (- 18 # 25)].
Definition ro_w : list Qc := [Q2Qc (- 32 # 25); Q2Qc (- 18 # 25)].
Definition ro_U : list Qc := [1%Qc; 0%Qc; 0%Qc; (- (1))%Qc].
Definition ro_syev (k : nat) (M : list Qc) : res (list Qc * list Qc) :=
  if Nat.eqb k 2 then
    if same_list M dr_M then Ok ([z (-9); z 16], [q45; (- q35)%Qc; q35; q45]) else if same_list M ro_ordm then Ok (ro_w, ro_U) else Err Throw
  else Err Throw.
Ltac two i := destruct i as [|[|i]]; [| |exfalso; lia].
Lemma ro_all : all_eigenpairs ro_syev.
Proof.
  intros k M w C H _ _. unfold ro_syev in H. destruct (Nat.eqb_spec k 2) as [->|]; [|discriminate].
  destruct (same_list M dr_M) eqn:E1; [|destruct (same_list M ro_ordm) eqn:E2; [|discriminate]]; [apply same_list_ok in E1|apply same_list_ok in E2]; subst M;
    (assert (Hw := H); apply (f_equal (fun r => match r with Ok x => fst x | Err _ => [] end)) in Hw; apply (f_equal (fun r => match r with Ok x => snd x | Err _ => [] end)) in H; cbn [fst snd] in H, Hw; subst w C);
    (split; [reflexivity|]; split; [reflexivity|]; split; [|split]);
    [intros i j Hi Hj; two i; two j; apply Qc_is_canon; vm_compute; reflexivity|intros i j Hi Hj; two i; two j; apply Qc_is_canon; vm_compute; reflexivity|intros i j Hij Hj; two j; two i; try lia; vm_compute; discriminate
    |intros i j Hi Hj; two i; two j; apply Qc_is_canon; vm_compute; reflexivity|intros i j Hi Hj; two i; two j; apply Qc_is_canon; vm_compute; reflexivity|intros i j Hij Hj; two j; two i; try lia; vm_compute; discriminate].
Qed.
Lemma ro_solves : eigensolver ro_syev.
Proof.
  intros k M W C H LM SM. unfold ro_syev in H. destruct (Nat.eqb_spec k 2) as [->|K]; [|discriminate]. destruct (same_list M dr_M) eqn:E1.
  - apply (dr_syev_solves 2 M W C); auto. unfold dr_syev. rewrite E1. exact H.
  - destruct (same_list M ro_ordm) eqn:E2; [|discriminate]. apply same_list_ok in E2. subst M.
    assert (Hw := H). apply (f_equal (fun r => match r with Ok x => fst x | Err _ => [] end)) in Hw. apply (f_equal (fun r => match r with Ok x => snd x | Err _ => [] end)) in H. cbn [fst snd] in H, Hw. subst W C.
    split; [reflexivity|]. split; [reflexivity|]. split; [apply Qc_is_canon; vm_compute; reflexivity|]. split.
    + intros [|[|i]] Hi; [| |lia]; apply Qc_is_canon; vm_compute; reflexivity.
    + intros y. cbn [nth].
      assert (E : Sigma 2 (fun i => y i * Sigma 2 (fun j => at2 ro_ordm 2 i j * y j))%Qc = (Q2Qc (- 32 # 25) * y 0%nat * y 0%nat + Q2Qc (- 18 # 25) * y 1%nat * y 1%nat)%Qc).
      { change (y 0%nat * (Q2Qc (- 32 # 25) * y 0%nat + (0 * y 1%nat + 0)) + (y 1%nat * (0 * y 0%nat + (Q2Qc (- 18 # 25) * y 1%nat + 0)) + 0) = Q2Qc (- 32 # 25) * y 0%nat * y 0%nat + Q2Qc (- 18 # 25) * y 1%nat * y 1%nat)%Qc. ring. }
      assert (E3 : norm2 2 y = (y 0%nat * y 0%nat + y 1%nat * y 1%nat)%Qc).
      { change (y 0%nat * y 0%nat + (y 1%nat * y 1%nat + 0) = y 0%nat * y 0%nat + y 1%nat * y 1%nat)%Qc. ring. }
      change ((Q2Qc (- 32 # 25) * norm2 2 y <= Sigma 2 (fun i => y i * Sigma 2 (fun j => at2 ro_ordm 2 i j * y j)))%Qc). rewrite E, E3.
      set (a := y 0%nat). set (b := y 1%nat). unfold Qcle. unfold Qcmult, Qcplus, Qcopp. cbn [this Q2Qc]. rewrite !Qred_correct.
      pose proof (square_Q (this b)) as SQ. nra.
Qed.

(** the search finds the doubly excited determinant *)
Definition d1 : N := 4294967297. 
Definition dets_ro : list N := [d4; d1].
Definition ro_st : Asci.settings := Asci.mk_settings 2 100 100 (Q2Qc (1 # 100000000)) (Q2Qc (1 # 100000000)) 1000 false 8 0 (Q2Qc (1 # 1000000)).
Lemma ro_st_ok : asci_settings dr_rot_a = ro_st.
Proof. reflexivity. Qed.
Lemma mol4_sym : pair_symmetric 2 (at4 dVA 2).
Proof. intros p q r s Hp Hq Hr Hs. two p; two q; two r; two s; reflexivity. Qed.
Lemma ro_core : core_ok 64 mol4 true ro_st 0%Qc d1.
Proof.
  split; [spc|]. split; [intros _; vm_compute; auto|]. apply no_res_check; [vm_compute; lia|spc|].
  vm_compute; reflexivity.
Qed.
Notation ro_pairs := (all_contribs 64 mol4 ro_st 0%Qc [1%Qc] 0 [d1]).
Lemma ro_score t : is_score 64 mol4 (Q2Qc (1 # 100000000)) false 0%Qc [d1] [1%Qc] t (score ro_pairs t).
Proof.
  apply (is_score_all 64 mol4) with (st := ro_st) (dbg := true); [vm_compute; lia|].
  constructor; [|constructor]. exact ro_core.
Qed.
Lemma ro_nonzero t : score ro_pairs t <> 0%Qc -> t = d4.
Proof.
  intros H. destruct (N.eq_dec t d4) as [->|N1]; [reflexivity|]. exfalso. apply H.
  unfold score, vals. replace (filter _ _) with (@nil (N * Qc)); [reflexivity|]. symmetry.
  assert (F : forall l : list (N * Qc), (forall p, In p l -> fst p = d4) -> filter (fun p : N * Qc => (fst p =? t)%N) l = []).
  { induction l as [|p l IH]; intros Hl; [reflexivity|]. cbn [filter].
    destruct (N.eqb_spec (fst p) t) as [E|]; [exfalso; pose proof (Hl p (or_introl eq_refl)); congruence|]. apply IH. intros q Hq. apply Hl. right. exact Hq. }
  apply F.
  assert (B : forallb (fun p : N * Qc => (fst p =? d4)%N) ro_pairs = true) by (vm_compute; reflexivity).
  rewrite forallb_forall in B. intros p Hp. specialize (B p Hp). rewrite N.eqb_eq in B. exact B.
Qed.
Lemma ro_search : always (asci_search true 64 ro_st mol4 2 [d1] 0%Qc [1%Qc]) (fun new => new = dets_ro).
Proof.
  eapply always_weaken; [|apply c28; try exact mol4_sym].
  + cbn beta. intros out (sel & E & Nd & L & A & B & F).
    assert (L2 : length out = 2).
    { destruct (Nat.lt_ge_cases (length out) 2) as [Hlt|]; [exfalso|lia].
      assert (X : incl [d4; d1] out).
      { intros t [<-|[<-|[]]]; [|rewrite E; apply in_or_app; right; left; reflexivity]. apply (F Hlt _ _ (ro_score _)). apply nz_ok. vm_compute. reflexivity. }
      apply NoDup_incl_length in X; [cbn [length] in X; lia|nodupx]. }
    rewrite E, app_length in L2. cbn [length] in L2. destruct sel as [|t [|u sel]]; cbn [length] in L2; [lia| |lia].
    destruct (A t (or_introl eq_refl)) as (_ & x & Hx & X0).
    assert (x = score ro_pairs t) by (eapply is_score_unique; [exact Hx|apply ro_score]). subst x.
    rewrite (ro_nonzero t X0) in E. exact E.
  + left; reflexivity.
  + vm_compute; lia.
  + intros D [<-|[]]. split; [spc|]. intros _. vm_compute. auto.
  + nodupx.
  + reflexivity.
  + cbn [length]. lia.
  + reflexivity.
  + intros D t [<-|[]]. apply ro_core.
  + apply pairs_check; [vm_compute; lia| |].
    * intros D [<-|[]]. spc.
    * apply Nat.leb_le. vm_compute. reflexivity.
Qed.

(** diagonalisation *)
Definition csr_ro : csr := mk_csr 2 2 0 [0; 2; 3] [0; 1; 0] [q7; q12; q12].
Definition ro_Y : list Qc := [(- q35)%Qc; q45].
Lemma ro_matrix : make_csr_hamiltonian 64 mol4 0%Qc dets_ro = Ok csr_ro.
Proof. vm_compute. reflexivity. Qed.
Lemma ro_dets b : In b dets_ro -> in_space 64 (norb mol4) b /\ size_is (alpha 64 b) 1 /\ size_is (beta 64 b) 1.
Proof. intros [<-|[<-|[]]]; (split; [cbn [norb mol4 held]; spc|split; sz]). Qed.
Lemma ro_ritz N V AV : gemm_tn N 2 V AV = Ok dr_M -> rayleigh_ritz ro_syev N 2 V AV = Ok ([z (-9); z 16], [q45; (- q35)%Qc; q35; q45]).
Proof. intros E. unfold rayleigh_ritz. rewrite E. cbn [bind]. unfold ro_syev. replace (same_list dr_M dr_M) with true by (vm_compute; reflexivity). reflexivity. Qed.
Lemma ro_ci : selected_ci_diag ex_root ro_syev 64 mol4 dets_ro 0%Qc 2 1%Qc [] (Ok (z (-9), ro_Y)).
Proof.
  unfold selected_ci_diag. eapply det_intro; [exact ro_matrix|].
  destruct (ci_built 64 mol4 0%Qc dets_ro 1 1) as (H & EH & CL & _); [left; reflexivity|cbn; lia| |exact ro_dets|apply Qcle_refl|].
  { intros p q r s Hp Hq Hr Hs. cbn [norb mol4 held] in *. destruct p as [|[|p]], q as [|[|q]], r as [|[|r]], s as [|[|s]]; try lia; reflexivity. }
  assert (H = csr_ro) by (pose proof ro_matrix; congruence). subst H. clear EH.
  apply (serial_back _ _ csr_ro (csr_entry csr_ro) 2 1%Qc [] 1); [exact CL|cbn; lia|reflexivity|intros [|j]; reflexivity|].
  change (csr_m csr_ro) with 2. change (Nat.min 2 2) with 2.
  match goal with |- context [diag_of_matrix 2 ?A] => replace (diag_of_matrix 2 A) with [q7; 0%Qc] by reflexivity end.
  change (unit_vector 2 (min_element [q7; 0%Qc])) with [0%Qc; 1%Qc].
  unfold davidson_run. cbv zeta. run0. run0.
  mvs [q12; 0%Qc]. run0. run0. run0.
  apply (det_intro _ _ [1%Qc; 0%Qc]); [qv|].
  run0. change (2 - 1) with 1. cbn [davidson_loop]. run0. run0. mvs [q7; q12]. run0.
  eapply det_intro; [apply ro_ritz; qv|].
  cbn beta iota. run0.
  apply (det_intro _ _ ro_Y); [qv|].
  apply (det_intro _ _ [0%Qc; 0%Qc]); [qv|].
  apply (det_intro _ _ 0%Qc); [apply q_ok; vm_compute; reflexivity|].
  replace (qlt (ex_root 0) 1) with true by (vm_compute; reflexivity). reflexivity.
Qed.
Lemma okp2 (r : res (list Qc * list Qc)) a b : okb r (fun x => same_list (fst x) a && same_list (snd x) b) = true -> r = Ok (a, b).
Proof. intros H. apply okb_ok in H. destruct H as ((x & y) & E & H). cbn [fst snd] in H. apply andb_true_iff in H. destruct H as [H1 H2]. apply same_list_ok in H1, H2. congruence. Qed.
Lemma ro_natural : natural_orbitals ro_syev 64 2 dets_ro ro_Y = Ok ([Q2Qc (32 # 25); Q2Qc (18 # 25)], ro_U).
Proof. apply okp2. vm_compute. reflexivity. Qed.
Lemma ro_rotate : rotate_integrals 2 ro_U dTA dVA = Ok (dTA, dVA).
Proof. apply okp2. vm_compute. reflexivity. Qed.
Lemma ro_grow : asci_grow_rot ro_syev 5 true 64 2 ro_st (mk_rot true 2) (ci_diag_of ex_root ro_syev dr_ci) (dTA, dVA) (0%Qc, [d1], [1%Qc]) (Ok (z (-9), dets_ro, ro_Y, (dTA, dVA))).
Proof.
  cbn [asci_grow_rot]. change (Nat.ltb (List.length [d1]) (ntdets_max ro_st)) with true. cbv iota. change (Nat.min (ntdets_max ro_st) (grow_factor ro_st * List.length [d1])) with 2. cbn [fst snd].
  apply (det_intro _ _ mol4); [reflexivity|].
  right. exists (z (-9), dets_ro, ro_Y). split.
  - unfold asci_iter. change (Nat.ltb 1 (List.length [d1])) with false. cbv iota. apply ret_intro. cbn [fst snd]. change (firstn _ [d1]) with [d1].
    right. exists dets_ro. split.
    + destruct ro_search as ((r & Hr) & A). destruct (A r Hr) as (x & -> & ->). exact Hr.
    + right. exists (z (-9), ro_Y). split; [exact ro_ci|reflexivity].
  - cbv iota. match goal with |- (if ?b then _ else _) _ => change b with false end. cbv iota. match goal with |- (if ?b then _ else _) _ => change b with true end. cbv iota.
    right. exists (dTA, dVA, ro_Y). split.
    + unfold grow_rotation. eapply det_intro; [exact ro_natural|]. cbn [snd]. eapply det_intro; [exact ro_rotate|]. cbv iota. apply (det_intro _ _ mol4); [reflexivity|].
      right. exists (z (-9), ro_Y). split; [exact ro_ci|reflexivity].
    + cbv iota. change (Nat.ltb (List.length dets_ro) (ntdets_max ro_st)) with false. cbv iota. reflexivity.
Qed.
Definition ro_run : nd outcome :=
  driver ex_root ro_syev no_syev_ld no_gelss ex_expm exact ex_show dec1 5 true (dr_fs dr_rot_in) no_fsb (Some (lit "in.ini")).
Lemma dr_rot_run : exists out, ro_run (Ok out) /\ out_E out = Q2Qc (-27 # 2) /\ out_dets out = [] /\ out_wfn out = None /\ out_fcidump out = None.
Proof.
  exists (mk_outcome (z (-9) + (z (-5) + Q2Qc (1 # 2)))%Qc [] None None). split; [|split; [apply Qc_is_canon; vm_compute; reflexivity|repeat split]].
  eapply (run_back ex_root ro_syev no_syev_ld no_gelss ex_expm exact ex_show dec1 true (dr_fs dr_rot_in) no_fsb (lit "in.ini") (lit "ints.dump") dr_dump (contents dr_rot_is) (Z.of_nat 1) dr_es dr_rot_o).
  - exists dr_rot_in, dr_rot_is. split; [reflexivity|]. split; [exact dr_rot_says|]. split; [vm_compute; tauto|reflexivity].
  - apply dr_asks; vm_compute; reflexivity.
  - exists dr_dump. split; [reflexivity|exact dr_data].
  - exact dr_rot_conf.
  - reflexivity.
  - exact dr_ints.
  - reflexivity.
  - exact dr_H.
  - exact dr_Ei.
  - unfold job_part. change (d_job dr_rot_o) with JobCI. change (d_exp dr_rot_o) with ExpASCI. cbv iota.
    right. exists ((z (-9) + (z (-5) + Q2Qc (1 # 2)))%Qc, None). split; [|reflexivity].
    unfold driver_asci_run. cbv zeta. apply (det_intro _ _ mol4); [reflexivity|]. apply (det_intro _ _ (0%Qc, [d1], [1%Qc])).
    { unfold driver_guess. change (k_wfn_in (d_asci dr_rot_o)) with (@nil ascii). cbv iota. replace (canonical_hf 64 (Z.to_nat (Z.of_nat 1)) (Z.to_nat (Z.of_nat 1))) with (Ok d1) by (vm_compute; reflexivity). cbn [bind].
      replace (matrix_element 64 mol4 d1 d1) with (Ok 0%Qc) by (symmetry; apply q_ok; vm_compute; reflexivity). reflexivity. }
    right. exists (z (-9), dets_ro, ro_Y, (dTA, dVA)). split; [exact ro_grow|]. cbv iota beta. cbn [fst snd]. apply (det_intro _ _ mol4); [reflexivity|].
    right. exists (z (-9), dets_ro, ro_Y). split; [reflexivity|]. cbv iota beta. apply (det_intro _ _ None); [reflexivity|]. reflexivity.
  - reflexivity.
Qed.

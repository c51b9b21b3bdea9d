(** A rotation on two ranks. *)
From Coq Require Import QArith Qcanon Bool.
From Verif Require Import Base SD Spec FockSpec Sums Nondet SlaterCondon Ham HamProofs HamProofs5 PropsHamGlue Mem MemProofs Dense DenseSpec DenseProofs DiisSpec SparseSpec CsrView Davidson DavSpec DavProofs DavProofs2 DavProofs5 DavProofs8 DavProofs14 DavEx
  Mcscf McscfSpec CasciSpec McscfGlue2 Asci AsciSpec AsciSort AsciSearch AsciGlue Constraint Collective AsciMpi AsciPar AsciParSpec AsciParProofs4 AsciParEx AsciRot AsciRotSpec AsciRotProofs AsciRotProofs2 AsciRotEx
  AsciRotPar AsciRotParSpec AsciRotParProofs AsciRotParGlue.
Local Open Scope nat_scope.
Local Opaque allreduce_one allreduce INT_MAX.

(** knows the eigenvectors of the Hamiltonian of the two determinants with the new integrals *)
Definition rp_M : list Qc := [Q2Qc (48308 # 25); Q2Qc (7056 # 25); Q2Qc (7056 # 25); Q2Qc (70442 # 25)].
Definition rp_C : list Qc := [Q2Qc (24 # 25); Q2Qc (- 7 # 25); Q2Qc (7 # 25); Q2Qc (24 # 25)].
Definition rp_syev (k : nat) (M : list Qc) : res (list Qc * list Qc) :=
  if (k =? 2) && qeq M rp_M then Ok ([inject 1850; inject 2900], rp_C) else Err Throw.
Definition rp_par : par := mk_par 2 0 2000 0%Qc 2 1%Qc.
Notation rp_dets := [rx_D1; rx_D].
Notation rp_h := (held 2 (rx_T', rx_V')).

Lemma rp_lengths k M W C : rp_syev k M = Ok (W, C) -> k <= length W /\ k * k <= length C.
Proof.
  unfold rp_syev. destruct (Nat.eqb_spec k 2) as [->|]; [|discriminate]. cbn [andb]. destruct (qeq M rp_M); [|discriminate]. intros H. injection H as <- <-. cbn. lia.
Qed.
Lemma rp_syev_solves : eigensolver rp_syev.
Proof.
  intros k M W C H LM SM. unfold rp_syev in H. destruct (Nat.eqb_spec k 2) as [->|]; [|discriminate]. destruct (qeq M rp_M) eqn:E; [|discriminate]. apply qeq_ok in E. subst M.
  cbn [andb] in H. injection H as <- <-. split; [reflexivity|]. split; [reflexivity|].
  apply (low2 _ _ _ (Q2Qc (42 # 25)) (inject 7) (inject 24)); [vm_compute; discriminate| | | | | |]; apply Qc_is_canon; vm_compute; reflexivity.
Qed.
Lemma rp_dets_ok b : In b rp_dets -> in_space 64 (norb rp_h) b /\ size_is (alpha 64 b) 1 /\ size_is (beta 64 b) 1.
Proof. change (norb rp_h) with 2. intros [<-|[<-|[]]]; (split; [spc|split; sz]). Qed.
Lemma rp_valid : valid_dets 64 2 1 1 rp_dets.
Proof. split; [nodupx|exact rp_dets_ok]. Qed.
Lemma rp_sym0 : pair_symmetric 2 (at4 rx_V' 2).
Proof.
  intros p q r s Hp Hq Hr Hs. apply Qc_is_canon. destruct (four p Hp), (four q Hq), (four r Hr), (four s Hs); subst; vm_compute; reflexivity.
Qed.
Lemma rp_sym p q r s : p < norb rp_h -> q < norb rp_h -> r < norb rp_h -> s < norb rp_h -> V_pqrs rp_h p q r s = V_pqrs rp_h r s p q.
Proof. apply rp_sym0. Qed.
Definition rp_csr : csr := mk_csr 2 2 0 [0; 2; 4] [0; 1; 0; 1] rx_M2.
Lemma rp_matrix : make_csr_hamiltonian 64 rp_h 0%Qc rp_dets = Ok rp_csr.
Proof. apply csr_eq. vm_compute. reflexivity. Qed.
Lemma ritz_rp N V AV : gemm_tn N 2 V AV = Ok rp_M -> rayleigh_ritz rp_syev N 2 V AV = Ok ([inject 1850; inject 2900], rp_C).
Proof. intros E. unfold rayleigh_ritz. rewrite E. cbn [bind]. unfold rp_syev. replace (qeq rp_M rp_M) with true by (vm_compute; reflexivity). reflexivity. Qed.
Lemma rp_ci : selected_ci_diag ex_root rp_syev 64 rp_h rp_dets 0%Qc 2 1%Qc [] (Ok (inject 1850, rx_X2)).
Proof.
  unfold selected_ci_diag. eapply det_intro; [exact rp_matrix|].
  destruct (ci_built 64 rp_h 0%Qc rp_dets 1 1) as (H & EH & CL & _); [left; reflexivity|vm_compute; lia|exact rp_sym|exact rp_dets_ok|apply Qcle_refl|].
  assert (H = rp_csr) by (pose proof rp_matrix; congruence). subst H. clear EH.
  apply (serial_back _ _ rp_csr (csr_entry rp_csr) 2 1%Qc [] 1); [exact CL|cbn; lia|reflexivity|intros [|j]; reflexivity|].
  change (csr_m rp_csr) with 2. change (Nat.min 2 2) with 2.
  match goal with |- context [diag_of_matrix 2 ?A] => replace (diag_of_matrix 2 A) with [Q2Qc (48308 # 25); Q2Qc (70442 # 25)] by reflexivity end.
  change (unit_vector 2 (min_element [Q2Qc (48308 # 25); Q2Qc (70442 # 25)])) with [1%Qc; 0%Qc].
  unfold davidson_run. cbv zeta. run0. run0.
  mvs [Q2Qc (48308 # 25); Q2Qc (- 7056 # 25)]. run0. run0. run0.
  apply (det_intro _ _ [0%Qc; (- (1))%Qc]); [qv|].
  run0. change (2 - 1) with 1. cbn [davidson_loop]. run0. run0. mvs [Q2Qc (7056 # 25); Q2Qc (- 70442 # 25)]. run0.
  eapply det_intro; [apply ritz_rp; qv|].
  cbn beta iota. run0.
  apply (det_intro _ _ rx_X2); [qv|].
  apply (det_intro _ _ [0%Qc; 0%Qc]); [qv|].
  apply (det_intro _ _ 0%Qc); [apply q_ok; vm_compute; reflexivity|].
  replace (qlt (ex_root 0) 1) with true by (vm_compute; reflexivity). reflexivity.
Qed.
Lemma rp_parallel dbg : always (p_selected_ci_diag ex_root rp_syev dbg 64 rp_h rp_dets 0%Qc 2 2 1%Qc [[]; []])
  (fun r => fst r = [inject 1850; inject 1850] /\ concat (snd r) = rx_X2).
Proof.
  apply (p_ci_agrees ex_root rp_syev 64 rp_h 0%Qc rp_dets 1 1 2 2 1%Qc [[]; []] []); [left; reflexivity|vm_compute; lia|exact rp_sym|exact rp_dets_ok|apply Qcle_refl|lia|cbn; lia|cbn; lia|reflexivity|apply nil_zero|intros [|j]; reflexivity|
    exact rp_lengths|cbn; lia|exact int_max_large| |exact rp_ci].
  intros i Hi. cbn in Hi. lia.
Qed.
Lemma rp_run dbg : always (grow_rotation_mpi ex_root rp_syev rx_syev rp_par dbg 64 2 rp_dets rx_X1 rx_T rx_V)
  (fun R => R = (rx_T', rx_V', rx_X2)).
Proof.
  unfold grow_rotation_mpi. change (p_ranks rp_par) with 2. change (p_thr rp_par) with 0%Qc. change (p_sub rp_par) with 2. change (p_tol rp_par) with 1%Qc.
  destruct (c72_same rx_syev 2 64 2 rp_dets rx_X1 rx_T rx_V rx_U rx_T' rx_V' _ ltac:(lia) (or_introl eq_refl) ltac:(lia) ltac:(vm_compute; lia) eq_refl eq_refl eq_refl rx_natural rx_rotate) as (_ & _ & E).
  rewrite E. apply (always_bind _ _ (eq (rx_T', rx_V'))); [eapply always_det; reflexivity|]. intros TV <-. cbn iota.
  rewrite span_rx by (vm_compute; lia). apply (always_bind _ _ (eq rp_h)); [eapply always_det; reflexivity|]. intros h <-.
  cbn [repeat]. eapply always_bind_in; [apply rp_parallel|]. cbn beta. intros [Es Ys] HD [HE HY]. cbn [fst snd] in *. subst Es.
  pose proof (diag_gather ex_root rp_syev 64 (or_introl eq_refl) rp_h ltac:(vm_compute; lia) rp_sym rp_par dbg 1 1 ltac:(intros _; cbn; lia) ltac:(cbn; lia) (Qcle_refl _) rp_dets [inject 1850; inject 1850] Ys rx_X1 rp_valid ltac:(cbn; lia) HD) as G.
  change (p_ranks rp_par) with 2 in G. cbn [repeat] in G.
  eapply (always_bind _ _ (fun x => x = repeat (concat Ys) 2)); [apply (always_det _ _ _ G); reflexivity|]. intros Xs ->.
  eapply (always_bind _ _ (fun x => x = concat Ys)); [apply (always_det _ _ _ (agreed_repeat _ (concat Ys) 2 ltac:(lia))); reflexivity|]. intros X ->.
  apply always_ret. rewrite HY. reflexivity.
Qed.
Lemma rp_before : lowest_eigenpair 2 (ci_matrix 64 (held 2 (rx_T, rx_V)) 0 rp_dets) (inject 1847) (fun i => nth i rx_X1 0%Qc).
Proof.
  assert (E : entries (held 2 (rx_T, rx_V)) rp_dets = rx_M1) by (apply qeq_ok; vm_compute; reflexivity).
  apply entries_inv in E. destruct E as (E1 & E2 & E3 & E4). exact (rx_low1 _ E1 E2 E3 E4).
Qed.
Lemma c72_ex : all_eigenpairs rx_syev /\ exact_root ex_root /\ eigensolver rp_syev /\ valid_dets 64 2 1 1 rp_dets /\ p_ranks rp_par = 2 /\
  length rx_T = 2 * 2 /\ length rx_V = 2 * 2 * (2 * 2) /\ pair_symmetric 2 (at4 rx_V 2) /\ rx_T' <> rx_T /\
  lowest_eigenpair 2 (ci_matrix 64 (held 2 (rx_T, rx_V)) 0 rp_dets) (inject 1847) (fun i => nth i rx_X1 0%Qc) /\
  lowest_eigenpair 2 (ci_matrix 64 (held 2 (rx_T', rx_V')) 0 rp_dets) (inject 1850) (fun i => nth i rx_X2 0%Qc) /\
  forall dbg, always (grow_rotation_mpi ex_root rp_syev rx_syev rp_par dbg 64 2 rp_dets rx_X1 rx_T rx_V)
    (fun R => R = (rx_T', rx_V', rx_X2)).
Proof.
  split; [exact rx_syev_ok|]. split; [exact ex_root_exact|]. split; [exact rp_syev_solves|]. split; [exact rp_valid|]. split; [reflexivity|]. split; [reflexivity|]. split; [reflexivity|].
  split; [exact rx_sym|]. split.
  { intros E. apply (f_equal (fun l => nth 0 l 0%Qc)) in E. revert E. vm_compute. congruence. }
  split; [exact rp_before|]. split; [exact rx_truth|]. exact rp_run.
Qed.

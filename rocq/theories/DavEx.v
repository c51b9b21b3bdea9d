(** Concrete cases for C50. *)
From Coq Require Import QArith Qcanon Lqa.
From Verif Require Import Base SD Spec FockSpec Nondet SlaterCondon Ham HamProofs HamProofs5 Asci AsciSort Mem MemProofs Sums SparseSpec CsrView Sparse SparseProofs3 Spmv SpmvSpec Dist DistProofs
  Collective CollectiveProofs SpmvGlue PropsHamGlue Diis
  DenseSpec DenseProofs DiisSpec DiisProofs DiisProofs2 PSpmvProofs2 Davidson DavSpec DavProofs DavProofs2 DavProofs3 DavProofs4 DavProofs5 DavProofs6 DavProofs7 DavProofs8 DavProofs9 DavProofs10 DavProofs11 DavProofs12 DavProofs13 DavProofs14.
Local Open Scope nat_scope.
Local Opaque allreduce_one allreduce INT_MAX.

Lemma square_Q (x : Q) : (0 <= x * x)%Q.
Proof. unfold Qle, Qmult. cbn. nia. Qed.

(** an exact square root where there is one *)
Definition ex_root (q : Qc) : Qc :=
  let s := Q2Qc (Z.sqrt (Qnum q) # Z.to_pos (Z.sqrt (Zpos (Qden q)))) in if Qc_eq_dec (s * s) q then s else 0%Qc.
Lemma ex_root_exact : exact_root ex_root.
Proof. intros q. unfold ex_root. match goal with |- context [Qc_eq_dec ?a ?b] => destruct (Qc_eq_dec a b) as [E|] end; [right; exact E|left; reflexivity]. Qed.
Definition q73 : Qc := Q2Qc (7 # 3).
Definition q45 : Qc := Q2Qc (4 # 5).
Definition q35 : Qc := Q2Qc (3 # 5).
(** knows the eigenvalues -3 and 16/3 of the matrix (0, 4; 4, 7/3) *)
Definition ex_M : list Qc := [0%Qc; inject 4; inject 4; q73].
Definition ex_syev (k : nat) (M : list Qc) : res (list Qc * list Qc) :=
  if (k =? 2) && (if list_eq_dec Qc_eq_dec M ex_M then true else false)
  then Ok ([(- inject 3)%Qc; Q2Qc (16 # 3)], [q45; (- q35)%Qc; q35; q45]) else Err Throw.
Lemma ex_syev_solves : eigensolver ex_syev.
Proof.
  intros k M W C H LM SM. unfold ex_syev in H. destruct (Nat.eqb_spec k 2) as [->|]; [|discriminate]. destruct (list_eq_dec Qc_eq_dec M ex_M) as [->|]; [|discriminate].
  cbn [andb] in H. injection H as <- <-. split; [reflexivity|]. split; [reflexivity|]. split; [apply Qc_is_canon; vm_compute; reflexivity|]. split.
  - intros [|[|i]] Hi; [| |lia]; apply Qc_is_canon; vm_compute; reflexivity.
  - intros y. cbn [nth].
    assert (E : Sigma 2 (fun i => y i * Sigma 2 (fun j => at2 ex_M 2 i j * y j))%Qc = (inject 4 * y 0%nat * y 1%nat + inject 4 * y 0%nat * y 1%nat + q73 * y 1%nat * y 1%nat)%Qc).
    { change (y 0%nat * (0 * y 0%nat + (inject 4 * y 1%nat + 0)) + (y 1%nat * (inject 4 * y 0%nat + (q73 * y 1%nat + 0)) + 0) = inject 4 * y 0%nat * y 1%nat + inject 4 * y 0%nat * y 1%nat + q73 * y 1%nat * y 1%nat)%Qc. ring. }
    assert (E2 : norm2 2 y = (y 0%nat * y 0%nat + y 1%nat * y 1%nat)%Qc).
    { change (y 0%nat * y 0%nat + (y 1%nat * y 1%nat + 0) = y 0%nat * y 0%nat + y 1%nat * y 1%nat)%Qc. ring. }
    change ((- inject 3 * norm2 2 y <= Sigma 2 (fun i => y i * Sigma 2 (fun j => at2 ex_M 2 i j * y j)))%Qc). rewrite E, E2.
    set (a := y 0%nat). set (b := y 1%nat).
    unfold Qcle, q73, inject. unfold Qcmult, Qcplus, Qcopp. cbn [this Q2Qc]. rewrite !Qred_correct.
    change (inject_Z (Z.of_nat 3)) with (3 # 1). change (inject_Z (Z.of_nat 4)) with (4 # 1).
    pose proof (square_Q (3 * this a + 4 * this b)) as SQ. nra.
Qed.

Lemma rq_ok (m : res (list Qc)) l : okb m (fun x => if list_eq_dec Qc_eq_dec x l then true else false) = true -> m = Ok l.
Proof. intros H. apply okb_ok in H. destruct H as (x & E & H). destruct (list_eq_dec Qc_eq_dec x l) as [->|]; [exact E|discriminate]. Qed.
Lemma q_ok (m : res Qc) l : okb m (fun x => if Qc_eq_dec x l then true else false) = true -> m = Ok l.
Proof. intros H. apply okb_ok in H. destruct H as (x & E & H). destruct (Qc_eq_dec x l) as [->|]; [exact E|discriminate]. Qed.
Lemma op_step {B} N A op v av w (f : list Qc -> nd B) r : always_multiplies N A op -> length v = N -> length av = N ->
  (if list_eq_dec Qc_eq_dec (mv N A v) w then true else false) = true -> f w r -> nbind (op v av) f r.
Proof.
  intros HO Lv Lav E H. destruct (list_eq_dec Qc_eq_dec (mv N A v) w) as [<-|]; [|discriminate]. right. exists (mv N A v). split; [|exact H].
  destruct (HO v av Lv Lav) as [[r' Hr'] AL]. destruct (AL r' Hr') as (w & -> & Lw & Fw).
  assert (w = mv N A v) as <-; [|exact Hr']. apply (nth_ext' _ _ 0%Qc); [unfold mv; rewrite map_length, seq_length; exact Lw|].
  intros i Hi. rewrite Lw in Hi. rewrite nth_mv by exact Hi. apply Fw. exact Hi.
Qed.

Definition mat2 (u v w x : Qc) : csr := mk_csr 2 2 0 [0; 2; 4] [0; 1; 0; 1] [u; v; w; x].
Lemma mat2_clean u v w x : clean (mat2 u v w x).
Proof.
  split; [unfold mat2; wf_tac|]. split; [reflexivity|]. intros [|[|i]] Hi; [| |cbn in Hi; lia]; cbn; constructor; cbn; [intuition lia|constructor; [intros []|constructor]|intuition lia|constructor; [intros []|constructor]].
Qed.
(** the matrix (0, 4; 4, 7/3) *)
Definition ex_H : csr := mat2 0 (inject 4) (inject 4) q73.
Ltac run0 := eapply det_intro; [reflexivity|].
Lemma ex_serial : serial_selected_ci_diag ex_root ex_syev ex_H 2 1%Qc [] (Ok ((- inject 3)%Qc, [q45; (- q35)%Qc])).
Proof.
  pose proof (mat2_clean 0 (inject 4) (inject 4) q73) as (Wf & En & ND).
  pose proof (sparse_multiplies _ Wf En) as HO. fold ex_H in HO. change (csr_m ex_H) with 2 in HO.
  unfold serial_selected_ci_diag. change (csr_m ex_H) with 2. change (resize 2 []) with [0%Qc; 0%Qc].
  apply (det_intro _ _ [0%Qc; q73]); [apply rq_ok; vm_compute; reflexivity|].
  apply (det_intro _ _ false); [vm_compute; reflexivity|].
  apply (det_intro _ _ [1%Qc; 0%Qc]); [apply rq_ok; vm_compute; reflexivity|].
  right. exists (1, (- inject 3)%Qc, [q45; (- q35)%Qc]). split; [|reflexivity].
  unfold davidson, davidson_run. change (Nat.min 2 2) with 2. cbv zeta.
  run0. run0.
  eapply (op_step 2 (csr_entry ex_H) _ _ _ [0%Qc; inject 4]); [exact HO|reflexivity|reflexivity|vm_compute; reflexivity|].
  run0. run0. run0.
  apply (det_intro _ _ [0%Qc; 1%Qc]); [apply rq_ok; vm_compute; reflexivity|].
  run0. change (2 - 1) with 1. cbn [davidson_loop]. run0. run0.
  eapply (op_step 2 (csr_entry ex_H) _ _ _ [inject 4; q73]); [exact HO|reflexivity|reflexivity|vm_compute; reflexivity|].
  run0.
  apply (det_intro _ _ ([(- inject 3)%Qc; Q2Qc (16 # 3)], [q45; (- q35)%Qc; q35; q45])).
  { unfold rayleigh_ritz. match goal with |- (do _ <- ?m; _) = _ => assert (E : m = Ok ex_M) by (apply rq_ok; vm_compute; reflexivity); rewrite E end.
    cbn [bind]. unfold ex_syev. destruct (list_eq_dec Qc_eq_dec ex_M ex_M); [reflexivity|contradiction]. }
  cbn beta iota. run0.
  apply (det_intro _ _ [q45; (- q35)%Qc]); [apply rq_ok; vm_compute; reflexivity|].
  apply (det_intro _ _ [0%Qc; 0%Qc]); [apply rq_ok; vm_compute; reflexivity|].
  apply (det_intro _ _ 0%Qc); [apply q_ok; vm_compute; reflexivity|].
  replace (qlt (ex_root 0) 1) with true by (vm_compute; reflexivity). reflexivity.
Qed.

(** two orbitals and one electron: the same matrix *)
Definition mol2 : ints := mk_ints 2 (fun p q => nth (2 * p + q) ex_M 0%Qc) (fun _ _ _ _ => 0%Qc).
Definition dets2 : list N := [1%N; 2%N].
Lemma mol2_dets b : In b dets2 -> in_space 64 (norb mol2) b /\ size_is (alpha 64 b) 1 /\ size_is (beta 64 b) 0.
Proof. intros [<-|[<-|[]]]; (split; [cbn [norb mol2]; spc|split; sz]). Qed.
Lemma ex_syev_lengths k M W C : ex_syev k M = Ok (W, C) -> k <= length W /\ k * k <= length C.
Proof.
  unfold ex_syev. destruct (Nat.eqb_spec k 2) as [->|]; [|discriminate]. destruct (list_eq_dec Qc_eq_dec M ex_M); [|discriminate]. intros H. injection H as <- <-. cbn. lia.
Qed.
Definition csr2 : csr := mk_csr 2 2 0 [0; 1; 3] [1; 0; 1] [inject 4; inject 4; q73].
Lemma mol2_matrix : make_csr_hamiltonian 64 mol2 0%Qc dets2 = Ok csr2.
Proof. vm_compute. reflexivity. Qed.
Ltac qv := apply rq_ok; vm_compute; reflexivity.
Ltac mvs w := match goal with |- nbind (ret ?m) _ _ => replace m with w by (symmetry; match goal with |- ?x = ?y => destruct (list_eq_dec Qc_eq_dec x y) as [E|E]; [exact E|exfalso; revert E; vm_compute; congruence] end) end; apply ret_intro.
Lemma ritz_ex N V AV : gemm_tn N 2 V AV = Ok ex_M -> rayleigh_ritz ex_syev N 2 V AV = Ok ([(- inject 3)%Qc; Q2Qc (16 # 3)], [q45; (- q35)%Qc; q35; q45]).
Proof. intros E. unfold rayleigh_ritz. rewrite E. cbn [bind]. unfold ex_syev. destruct (list_eq_dec Qc_eq_dec ex_M ex_M); [reflexivity|contradiction]. Qed.
Lemma ex_ci : selected_ci_diag ex_root ex_syev 64 mol2 dets2 0%Qc 2 1%Qc [] (Ok ((- inject 3)%Qc, [q45; (- q35)%Qc])).
Proof.
  unfold selected_ci_diag. eapply det_intro; [exact mol2_matrix|].
  destruct (ci_built 64 mol2 0%Qc dets2 1 0) as (H & EH & CL & _); [left; reflexivity|cbn; lia|reflexivity|exact mol2_dets|apply Qcle_refl|].
  assert (H = csr2) by (pose proof mol2_matrix; congruence). subst H. clear EH.
  apply (serial_back _ _ csr2 (csr_entry csr2) 2 1%Qc [] 1); [exact CL|cbn; lia|reflexivity|intros [|j]; reflexivity|].
  change (csr_m csr2) with 2. change (Nat.min 2 2) with 2.
  match goal with |- context [diag_of_matrix 2 ?A] => replace (diag_of_matrix 2 A) with [0%Qc; q73] by reflexivity end.
  change (unit_vector 2 (min_element [0%Qc; q73])) with [1%Qc; 0%Qc].
  unfold davidson_run. cbv zeta. run0. run0.
  mvs [0%Qc; inject 4]. run0. run0. run0.
  apply (det_intro _ _ [0%Qc; 1%Qc]); [qv|].
  run0. change (2 - 1) with 1. cbn [davidson_loop]. run0. run0. mvs [inject 4; q73]. run0.
  eapply det_intro; [apply ritz_ex; qv|].
  cbn beta iota. run0.
  apply (det_intro _ _ [q45; (- q35)%Qc]); [qv|].
  apply (det_intro _ _ [0%Qc; 0%Qc]); [qv|].
  apply (det_intro _ _ 0%Qc); [apply q_ok; vm_compute; reflexivity|].
  replace (qlt (ex_root 0) 1) with true by (vm_compute; reflexivity). reflexivity.
Qed.
Lemma int_max_large : 9 < Z.to_nat INT_MAX.
Proof. apply Nat2Z.inj_lt. Local Transparent INT_MAX. rewrite Z2Nat.id by (unfold INT_MAX; lia). unfold INT_MAX. Local Opaque INT_MAX. lia. Qed.
Lemma nil_zero r j : nth j (nth r [[]; []] []) 0%Qc = 0%Qc.
Proof. destruct r as [|[|[|r]]], j; reflexivity. Qed.
Lemma ex_parallel dbg : always (p_selected_ci_diag ex_root ex_syev dbg 64 mol2 dets2 0%Qc 2 2 1%Qc [[]; []])
  (fun r => fst r = [(- inject 3)%Qc; (- inject 3)%Qc] /\ concat (snd r) = [q45; (- q35)%Qc]).
Proof.
  apply (p_ci_agrees ex_root ex_syev 64 mol2 0%Qc dets2 1 0 2 2 1%Qc [[]; []] []); [left; reflexivity|cbn; lia|reflexivity|exact mol2_dets|apply Qcle_refl|lia|cbn; lia|cbn; lia|reflexivity|apply nil_zero|intros [|j]; reflexivity|
    exact ex_syev_lengths|cbn; lia|exact int_max_large| |exact ex_ci].
  intros i Hi. cbn in Hi. lia.
Qed.

(** three orbitals: the smallest diagonal element in the last row *)
Definition mol3 : ints := mk_ints 3 (fun p q => nth (3 * p + q) [inject 5; 0%Qc; 0%Qc; 0%Qc; q73; inject 4; 0%Qc; inject 4; 0%Qc] 0%Qc) (fun _ _ _ _ => 0%Qc).
Definition dets3 : list N := [1%N; 2%N; 4%N].
Lemma mol3_dets b : In b dets3 -> in_space 64 (norb mol3) b /\ size_is (alpha 64 b) 1 /\ size_is (beta 64 b) 0.
Proof. intros [<-|[<-|[<-|[]]]]; (split; [cbn [norb mol3]; spc|split; sz]). Qed.
Definition csr3 : csr := mk_csr 3 3 0 [0; 1; 3; 4] [0; 1; 2; 1] [inject 5; q73; inject 4; inject 4].
Lemma mol3_matrix : make_csr_hamiltonian 64 mol3 0%Qc dets3 = Ok csr3.
Proof. vm_compute. reflexivity. Qed.
Lemma ex_ci3 : selected_ci_diag ex_root ex_syev 64 mol3 dets3 0%Qc 3 1%Qc [] (Ok ((- inject 3)%Qc, [0%Qc; (- q35)%Qc; q45])).
Proof.
  unfold selected_ci_diag. eapply det_intro; [exact mol3_matrix|].
  destruct (ci_built 64 mol3 0%Qc dets3 1 0) as (H & EH & CL & _); [left; reflexivity|cbn; lia|reflexivity|exact mol3_dets|apply Qcle_refl|].
  assert (H = csr3) by (pose proof mol3_matrix; congruence). subst H. clear EH.
  apply (serial_back _ _ csr3 (csr_entry csr3) 3 1%Qc [] 1); [exact CL|cbn; lia|reflexivity|intros [|j]; reflexivity|].
  change (csr_m csr3) with 3. change (Nat.min 3 3) with 3.
  match goal with |- context [diag_of_matrix 3 ?A] => replace (diag_of_matrix 3 A) with [inject 5; q73; 0%Qc] by reflexivity end.
  change (unit_vector 3 (min_element [inject 5; q73; 0%Qc])) with [0%Qc; 0%Qc; 1%Qc].
  unfold davidson_run. cbv zeta. run0. run0.
  mvs [0%Qc; inject 4; 0%Qc]. run0. run0. run0.
  apply (det_intro _ _ [0%Qc; 1%Qc; 0%Qc]); [qv|].
  run0. change (3 - 1) with 2. cbn [davidson_loop]. run0. run0. mvs [0%Qc; q73; inject 4]. run0.
  eapply det_intro; [apply ritz_ex; qv|].
  cbn beta iota. run0.
  apply (det_intro _ _ [0%Qc; (- q35)%Qc; q45]); [qv|].
  apply (det_intro _ _ [0%Qc; 0%Qc; 0%Qc]); [qv|].
  apply (det_intro _ _ 0%Qc); [apply q_ok; vm_compute; reflexivity|].
  replace (qlt (ex_root 0) 1) with true by (vm_compute; reflexivity). reflexivity.
Qed.

(** without a usable guess the distributed solver does not return if every smallest diagonal element lies in the remainder rows *)
Lemma p_ci_remainder root syev dbg W h thr sds na nb P max_m tol C s : spin_width W -> norb h <= W / 2 ->
  (forall p q r s, p < norb h -> q < norb h -> r < norb h -> s < norb h -> V_pqrs h p q r s = V_pqrs h r s p q) ->
  (forall b, In b sds -> in_space W (norb h) b /\ size_is (alpha W b) na /\ size_is (beta W b) nb) -> (0 <= thr)%Qc ->
  0 < P -> (Z.of_nat (length sds * P) < 2 ^ 31)%Z -> length C = P -> (forall r j, nth j (nth r C []) 0%Qc = 0%Qc) -> root 0%Qc = 0%Qc ->
  (forall i, smallest_at (diag_of_matrix (length sds) (ci_matrix W h thr sds)) i -> P * (length sds / P) <= i) ->
  ~ p_selected_ci_diag root syev dbg W h sds thr P max_m tol C (Ok s).
Proof.
  intros HW Hn Vsym Gd Ht HP HZ LC HC HR HB H. destruct s as [Es Ys]. destruct (ham_parts W h thr sds na nb P HW Hn Vsym Gd Ht HP HZ) as (tiles & As & ET & LT & EAs & PA & IS & ND).
  unfold p_selected_ci_diag in H. apply det_inv in H. destruct H as (t & Et & H). rewrite ET in Et. injection Et as <-.
  apply det_inv in H. destruct H as (As' & EAs' & H). rewrite EAs in EAs'. injection EAs' as <-.
  destruct (parallel_start (length sds) P tiles As (ci_matrix W h thr sds) C PA IS ET HP ND LC HC root syev dbg max_m tol Es Ys HR H) as (it & E & m & X & E1 & SY & EM & SM & Lq & _).
  specialize (HB m SM). lia.
Qed.
(** more ranks than determinants: it does not return, whatever the guess *)
Lemma p_ci_few root syev dbg W h thr sds na nb P max_m tol C s : spin_width W -> norb h <= W / 2 ->
  (forall p q r s, p < norb h -> q < norb h -> r < norb h -> s < norb h -> V_pqrs h p q r s = V_pqrs h r s p q) ->
  (forall b, In b sds -> in_space W (norb h) b /\ size_is (alpha W b) na /\ size_is (beta W b) nb) -> (0 <= thr)%Qc ->
  length sds < P -> (Z.of_nat (length sds * P) < 2 ^ 31)%Z -> length C = P ->
  ~ p_selected_ci_diag root syev dbg W h sds thr P max_m tol C (Ok s).
Proof.
  intros HW Hn Vsym Gd Ht HP HZ LC H. destruct s as [Es Ys]. destruct (ham_parts W h thr sds na nb P HW Hn Vsym Gd Ht ltac:(lia) HZ) as (tiles & As & ET & LT & EAs & PA & IS & ND).
  unfold p_selected_ci_diag in H. apply det_inv in H. destruct H as (t & Et & H). rewrite ET in Et. injection Et as <-.
  apply det_inv in H. destruct H as (As' & EAs' & H). rewrite EAs in EAs'. injection EAs' as <-.
  destruct (parallel_inv root syev dbg _ _ _ _ max_m tol C Es Ys PA IS ltac:(lia) ltac:(lia) H) as (it & E & D & C' & E1 & SY & _ & _ & _ & Pos & _).
  destruct P as [|[|P]]; [lia| |].
  - specialize (Pos 0 ltac:(lia)). destruct (extents_nth _ _ _ (proj1 PA) _ _ _ (tile_at _ _ _ ET ltac:(lia) 0 ltac:(lia))) as [_ E2]. rewrite E2 in Pos. cbn [Nat.eqb Nat.mul] in Pos. lia.
  - specialize (Pos 0 ltac:(lia)). destruct (extents_nth _ _ _ (proj1 PA) _ _ _ (tile_at _ _ _ ET ltac:(lia) 0 ltac:(lia))) as [_ E2]. rewrite E2 in Pos. cbn [Nat.eqb] in Pos.
    rewrite Nat.div_small in Pos by lia. lia.
Qed.
(** ranks that disagree about keeping the guess wait for each other *)
Lemma existsb_In {X} (f : X -> bool) l x : In x l -> f x = true -> existsb f l = true.
Proof. intros H E. apply existsb_exists. eauto. Qed.
Lemma inject_S_nz m : inject (S m) <> 0%Qc.
Proof.
  intros Z. unfold inject in Z. apply (f_equal this) in Z. cbn [this Q2Qc] in Z.
  assert (K : (inject_Z (Z.of_nat (S m)) == 0)%Q) by (rewrite <- (Qred_correct (inject_Z _)), Z; reflexivity). unfold Qeq in K. cbn in K. lia.
Qed.
Lemma parallel_disagree root syev dbg M tiles As A max_m tol C r1 r2 : parts_of M tiles As A -> length C = length tiles ->
  (forall r, r < length tiles -> 0 < nth r (extents tiles) 0) ->
  (forall r, r < length tiles -> length (nth r C []) = nth r (extents tiles) 0) ->
  r1 < length tiles -> r2 < length tiles -> keep_guess (nth r1 C []) = Ok true -> keep_guess (nth r2 C []) = Ok false ->
  (exists r, parallel_selected_ci_diag root syev dbg As max_m tol C r) /\
  forall r, parallel_selected_ci_diag root syev dbg As max_m tol C r -> r = Err Hang.
Proof.
  intros PA LC Pos SC H1 H2 K1 K2. pose proof PA as (T & LA & HA).
  assert (E0 : mapM (fun rA => row_extent (snd rA) (fst rA)) (combine (seq 0 (length As)) As) = Ok (extents tiles)).
  { destruct (mapM_ex (fun rA => row_extent (snd rA) (fst rA)) (combine (seq 0 (length As)) As)) as [Ns EN].
    - intros x Hx. apply (In_nth _ _ (0, mk_dist 0 [] (mk_csr 0 0 0 [] [] []) None)) in Hx. destruct Hx as (r & Hr & <-).
      rewrite combine_length, seq_length, Nat.min_id in Hr. rewrite combine_nth by apply seq_length. rewrite seq_nth by exact Hr. cbn [fst snd plus].
      destruct (nth_error_ex As r Hr) as [B EB]. rewrite (nth_error_nth As r _ EB). destruct (HA r B EB) as ((_ & Et & _) & _). unfold row_extent. rewrite Et.
      rewrite (at_ok _ _ (0, 0)) by lia. cbn [bind]. eauto.
    - rewrite EN. f_equal. eapply extents_mapM; [intros r B EB; apply (HA r B EB)|exact LA|exact EN]. }
  assert (EC : map (fun NC => resize (fst NC) (snd NC)) (combine (extents tiles) C) = C).
  { apply (nth_ext' _ _ []); [rewrite map_length, combine_length, extents_length; lia|]. intros r Hr. rewrite map_length, combine_length, extents_length in Hr.
    rewrite (nth_indep _ _ (resize (fst (0, @nil Qc)) (snd (0, @nil Qc)))) by (rewrite map_length, combine_length, extents_length; lia).
    rewrite (map_nth (fun NC => resize (fst NC) (snd NC))), combine_nth by (rewrite extents_length; lia). cbn [fst snd]. unfold resize.
    rewrite <- (SC r) by lia. rewrite firstn_all, Nat.sub_diag. apply app_nil_r. }
  destruct (locals_total M tiles As A PA) as [D HD].
  destruct (mapM_ex keep_guess C) as [ks EK].
  { intros c Hc. apply (In_nth _ _ []) in Hc. destruct Hc as (r & Hr & <-). specialize (Pos r ltac:(lia)). rewrite <- (SC r) in Pos by lia.
    destruct (nth r C []) as [|x l]; [cbn in Pos; lia|]. unfold keep_guess. cbn [max_abs bind]. unfold fdiv.
    destruct (Qc_eq_dec (inject (length (x :: l))) 0) as [Z|]; [|cbn [bind]; eauto]. exfalso. exact (inject_S_nz _ Z). }
  pose proof EK as EK'. apply mapM_inv in EK'. destruct EK' as [LK FK].
  assert (B1 : nth r1 ks false = true) by (specialize (FK r1 [] false ltac:(lia)); congruence).
  assert (B2 : nth r2 ks true = false) by (specialize (FK r2 [] true ltac:(lia)); congruence).
  assert (EX : existsb (fun b => b) ks = true) by (apply (existsb_In _ _ true); [rewrite <- B1; apply nth_In; lia|reflexivity]).
  assert (FA : forallb (fun b => b) ks = false).
  { destruct (forallb (fun b => b) ks) eqn:E; [|reflexivity]. rewrite forallb_forall in E. assert (L2 : r2 < length ks) by lia. specialize (E (nth r2 ks true) (nth_In ks true L2)). rewrite B2 in E. discriminate. }
  unfold parallel_selected_ci_diag. split.
  - exists (Err Hang). eapply det_intro; [exact E0|]. cbv zeta. rewrite EC. eapply det_intro; [exact HD|]. eapply det_intro; [exact EK|]. rewrite EX, FA. left. exists Hang. split; reflexivity.
  - intros r H. apply (det_ok _ _ _ _ E0) in H. cbv beta zeta in H. rewrite EC in H. apply (det_ok _ _ _ _ HD) in H. cbv beta in H. apply (det_ok _ _ _ _ EK) in H. cbv beta in H. rewrite EX, FA in H.
    apply (det_err _ Hang _ _ eq_refl) in H. exact H.
Qed.

Lemma tiles3 : default_tiles 3 2 = Ok [(0, 1); (1, 3)].
Proof. reflexivity. Qed.
Lemma b_keep (m : res bool) b : okb m (Bool.eqb b) = true -> m = Ok b.
Proof. intros H. apply okb_ok in H. destruct H as (x & E & H). apply Bool.eqb_prop in H. congruence. Qed.
(** started from the solution itself, two ranks wait for each other for ever *)
Lemma ex_hang root syev dbg max_m tol :
  (exists r, p_selected_ci_diag root syev dbg 64 mol3 dets3 0%Qc 2 max_m tol [[0%Qc]; [(- q35)%Qc; q45]] r) /\
  forall r, p_selected_ci_diag root syev dbg 64 mol3 dets3 0%Qc 2 max_m tol [[0%Qc]; [(- q35)%Qc; q45]] r -> r = Err Hang.
Proof.
  destruct (ham_parts 64 mol3 0%Qc dets3 1 0 2) as (tiles & As & ET & LT & EAs & PA & IS & ND);
    [left; reflexivity|cbn; lia|reflexivity|exact mol3_dets|apply Qcle_refl|lia|cbn; lia|].
  change (length dets3) with 3 in *. pose proof tiles3 as T3. assert (tiles = [(0, 1); (1, 3)]) by congruence. subst tiles. clear T3.
  destruct (parallel_disagree root syev dbg 3 _ As _ max_m tol [[0%Qc]; [(- q35)%Qc; q45]] 1 0 PA) as [EXI ALL]; [reflexivity| | |cbn; lia|cbn; lia| | |].
  - intros [|[|r]] Hr; [cbn; lia|cbn; lia|cbn in Hr; lia].
  - intros [|[|r]] Hr; [reflexivity|reflexivity|cbn in Hr; lia].
  - apply b_keep. vm_compute. reflexivity.
  - apply b_keep. vm_compute. reflexivity.
  - unfold p_selected_ci_diag. change (length dets3) with 3. split.
    + destruct EXI as [r Hr]. exists r. eapply det_intro; [exact ET|]. eapply det_intro; [exact EAs|]. exact Hr.
    + intros r H. apply (det_ok _ _ _ _ ET) in H. cbv beta in H. apply (det_ok _ _ _ _ EAs) in H. cbv beta in H. apply ALL. exact H.
Qed.
Lemma ex_remainder root syev dbg max_m tol s : root 0%Qc = 0%Qc -> ~ p_selected_ci_diag root syev dbg 64 mol3 dets3 0%Qc 2 max_m tol [[]; []] (Ok s).
Proof.
  intros HR. apply (p_ci_remainder root syev dbg 64 mol3 0%Qc dets3 1 0 2); [left; reflexivity|cbn; lia|reflexivity|exact mol3_dets|apply Qcle_refl|lia|cbn; lia|reflexivity|apply nil_zero|exact HR|].
  change (length dets3) with 3. change (2 * (3 / 2)) with 2.
  destruct (ci_built 64 mol3 0%Qc dets3 1 0) as (H & EH & CL & Em & FA); [left; reflexivity|cbn; lia|reflexivity|exact mol3_dets|apply Qcle_refl|].
  assert (H = csr3) by (pose proof mol3_matrix; congruence). subst H. clear EH. change (length dets3) with 3 in FA.
  intros i [Hi SM]. change (i < 3) in Hi. specialize (SM 2 ltac:(cbn; lia)). unfold diag_of_matrix in SM. rewrite !nth_map_seq in SM by lia.
  rewrite <- !FA in SM by lia. destruct i as [|[|i]]; [| |lia]; exfalso; revert SM; apply Qclt_not_le; vm_compute; reflexivity.
Qed.
(** a passed vector that is not of length one: the returned value is below the whole spectrum *)
Definition low2 : csr := mat2 0 (inject 2) (inject 2) q73.
Lemma low2_run : serial_selected_ci_diag ex_root ex_syev low2 2 (inject 4) [inject 2; 0%Qc] (Ok ((- inject 3)%Qc, [Q2Qc (8 # 5); (- q35)%Qc])).
Proof.
  pose proof (mat2_clean 0 (inject 2) (inject 2) q73) as (Wf & En & ND).
  pose proof (sparse_multiplies _ Wf En) as HO. fold low2 in HO. change (csr_m low2) with 2 in HO.
  unfold serial_selected_ci_diag. change (csr_m low2) with 2. change (resize 2 [inject 2; 0%Qc]) with [inject 2; 0%Qc].
  apply (det_intro _ _ [0%Qc; q73]); [qv|].
  apply (det_intro _ _ true); [vm_compute; reflexivity|].
  run0. right. exists (1, (- inject 3)%Qc, [Q2Qc (8 # 5); (- q35)%Qc]). split; [|reflexivity].
  unfold davidson, davidson_run. change (Nat.min 2 2) with 2. cbv zeta.
  run0. run0.
  eapply (op_step 2 (csr_entry low2) _ _ _ [0%Qc; inject 4]); [exact HO|reflexivity|reflexivity|vm_compute; reflexivity|].
  run0. run0. run0.
  apply (det_intro _ _ [0%Qc; 1%Qc]); [qv|].
  run0. change (2 - 1) with 1. cbn [davidson_loop]. run0. run0.
  eapply (op_step 2 (csr_entry low2) _ _ _ [inject 2; q73]); [exact HO|reflexivity|reflexivity|vm_compute; reflexivity|].
  run0. eapply det_intro; [apply ritz_ex; qv|]. cbn beta iota. run0.
  apply (det_intro _ _ [Q2Qc (8 # 5); (- q35)%Qc]); [qv|].
  apply (det_intro _ _ [Q2Qc (18 # 5); 0%Qc]); [qv|].
  apply (det_intro _ _ (Q2Qc (324 # 25))); [apply q_ok; vm_compute; reflexivity|].
  replace (qlt (ex_root (Q2Qc (324 # 25))) (inject 4)) with true by (vm_compute; reflexivity). reflexivity.
Qed.
Lemma low2_spectrum : spectrum_above 2 (csr_entry low2) (- inject 2)%Qc.
Proof.
  intros x. set (a := nth 0 x 0%Qc). set (b := nth 1 x 0%Qc).
  assert (E : expectation 2 (csr_entry low2) x = (inject 2 * a * b + inject 2 * a * b + q73 * b * b)%Qc).
  { unfold expectation, matvec. change (Sigma 2 ?f) with (f 0%nat + (f 1%nat + 0))%Qc. cbv beta. fold a b.
    change (Sigma 2 ?f) with (f 0%nat + (f 1%nat + 0))%Qc. cbv beta. fold a b.
    replace (csr_entry low2 0 0) with 0%Qc by (apply Qc_is_canon; vm_compute; reflexivity). replace (csr_entry low2 0 1) with (inject 2) by (apply Qc_is_canon; vm_compute; reflexivity).
    replace (csr_entry low2 1 0) with (inject 2) by (apply Qc_is_canon; vm_compute; reflexivity). replace (csr_entry low2 1 1) with q73 by (apply Qc_is_canon; vm_compute; reflexivity). ring. }
  assert (E2 : dot 2 x x = (a * a + b * b)%Qc) by (unfold dot; change (Sigma 2 ?f) with (f 0%nat + (f 1%nat + 0))%Qc; cbv beta; fold a b; ring).
  rewrite E, E2. unfold Qcle, q73, inject. unfold Qcmult, Qcplus, Qcopp. cbn [this Q2Qc]. rewrite !Qred_correct.
  change (inject_Z (Z.of_nat 2)) with (2 # 1). pose proof (square_Q (this a + this b)) as SQ. pose proof (square_Q (this b)) as SB. nra.
Qed.
(** old contents of the guess vector survive *)
Lemma dirty_ex : keep_guess [Q2Qc (1 # 2); Q2Qc (1 # 2)] = Ok false /\ diagonal_guess ex_H [Q2Qc (1 # 2); Q2Qc (1 # 2)] = Ok [1%Qc; Q2Qc (1 # 2)].
Proof. split; [apply b_keep; vm_compute; reflexivity|qv]. Qed.
Lemma low2_sym : symmetric2 (csr_m low2) (csr_entry low2).
Proof. intros [|[|i]] [|[|j]] Hi Hj; cbn in Hi, Hj; try lia; apply Qc_is_canon; vm_compute; reflexivity. Qed.
Lemma gs_spec root N K V x y : exact_root root -> orthonormal N K V -> gram_schmidt root N K V x = Ok y ->
  length y = N /\ (forall l, l < K -> dot N (nth l V []) y = 0%Qc) /\ dot N y y = 1%Qc /\
  exists s a, s <> 0%Qc /\ forall i, i < N -> nth i x 0%Qc = (Sigma K (fun l => a l * nth i (nth l V []) 0) + s * nth i y 0)%Qc.
Proof.
  intros HR O H. destruct (gs_inv _ _ _ _ _ _ O H) as (_ & L & F & q & s & a & _ & NZ & _ & G). split; [exact L|]. split; [exact F|].
  split; [exact (gs_unit _ _ _ _ _ _ HR O H)|]. exists s, a. split; [exact NZ|exact G].
Qed.
Lemma gs_ex : orthonormal 2 1 [[1%Qc; 0%Qc]] /\ gram_schmidt ex_root 2 1 [[1%Qc; 0%Qc]] [inject 5; inject 4] = Ok [0%Qc; 1%Qc].
Proof. split; [|qv]. intros [|a] [|b] Ha Hb; try lia. apply Qc_is_canon; vm_compute; reflexivity. Qed.
Lemma total_ex : always_multiplies 2 (csr_entry ex_H) (sparse_action ex_H 2) /\ symmetric2 2 (csr_entry ex_H) /\ dot 2 [1%Qc; 0%Qc] [1%Qc; 0%Qc] = 1%Qc.
Proof.
  split; [|split; [|apply Qc_is_canon; vm_compute; reflexivity]].
  - destruct (mat2_clean 0 (inject 4) (inject 4) q73) as (Wf & En & ND). exact (sparse_multiplies ex_H Wf En).
  - intros [|[|i]] [|[|j]] Hi Hj; try lia; apply Qc_is_canon; vm_compute; reflexivity.
Qed.
Lemma eigen_ex : dot 2 [q45; (- q35)%Qc] [q45; (- q35)%Qc] = 1%Qc /\
  forall i, i < 2 -> matvec 2 (csr_entry ex_H) [q45; (- q35)%Qc] i = (- inject 3 * nth i [q45; (- q35)%Qc] 0)%Qc.
Proof. split; [apply Qc_is_canon; vm_compute; reflexivity|]. intros [|[|i]] Hi; [| |lia]; apply Qc_is_canon; vm_compute; reflexivity. Qed.

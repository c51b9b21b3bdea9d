(** Examples for C62. *)
From Coq Require Import QArith Qcanon Sorting.Permutation Sorting.Sorted.
From Verif Require Import Base Nondet Bits SD Spec Sums FockSpec SlaterCondon Ham SDProofs SDProofs3 PropsHamGlue DenseSpec DiisSpec SparseSpec CsrView Davidson DavSpec DavProofs DavProofs2 DavProofs8 DavProofs5 DavProofs14 DavEx
  Asci AsciSpec AsciSort AsciSearch3 AsciGlue Constraint ConstraintSpec ConstraintGlue2 Collective CollectiveSpec AsciMpi AsciMpiSpec AsciMpiGlue AsciMpiGlue2 AsciPar AsciParSpec AsciParProofs4 AsciParGlue.
Local Open Scope nat_scope.

Lemma px_sym p q r s : p < 4 -> q < 4 -> r < 4 -> s < 4 -> V_pqrs ex_ints p q r s = V_pqrs ex_ints r s p q.
Proof. intros _ _ _ _. cbn [V_pqrs ex_ints]. f_equal. lia. Qed.
Definition px_root (_ : Qc) : Qc := 1%Qc.
Definition px_syev (k : nat) (_ : list Qc) : res (list Qc * list Qc) := Ok (repeat 0%Qc k, repeat 1%Qc (k * k)).
Definition px_par : par := mk_par 3 0 2000 0%Qc 3 (inject 2).
Definition px_new : list N := [(13 + 2 ^ 32)%N; (7 + 2 ^ 32)%N; (11 + 2 ^ 32)%N].
(* as [m_st], with room for three determinants *)
Definition px_st : settings := mk_settings 3 3 100 0 0 1000 false 2 6 (Q2Qc (1 # 1000)).
Definition px_s : wfn_state := (ex_E0, c_core, ex_C).
Lemma px_valid : valid_dets 64 4 3 1 c_core.
Proof. split; [nodupx|]. intros D [<-|[<-|[]]]; (split; [spc|split; sz]). Qed.
Lemma px_new_valid b : In b px_new -> in_space 64 (norb ex_ints) b /\ size_is (alpha 64 b) 3 /\ size_is (beta 64 b) 1.
Proof. change (norb ex_ints) with 4. intros [<-|[<-|[<-|[]]]]; (split; [spc|split; sz]). Qed.
Lemma px_nodup : NoDup px_new.
Proof. nodupx. Qed.
Lemma px_search g : always (asci_search_mpi 2000 g true 64 px_st 0 ex_ints 3 c_core ex_E0 ex_C 3) (fun out => out = px_new).
Proof.
  eapply always_weaken; [|apply (c54_best 64 (or_introl eq_refl) ex_ints ltac:(vm_compute; lia) px_sym true px_st ex_E0 ex_C c_core ltac:(vm_compute; lia) c_space2 0 3 ltac:(lia) ltac:(discriminate) c_el 2000 g 3)].
  - cbn beta. intros out (sel & -> & Nd & L & C & B). change (3 - length c_core) with 1 in L. destruct sel as [|t [|t2 sel]]; cbn [length] in L; [lia| |lia].
    cut (t = (13 + 2 ^ 32)%N); [intros ->; reflexivity|].
    destruct (N.eq_dec t (13 + 2 ^ 32)%N) as [|Ne]; [assumption|exfalso].
    assert (K : candidate 64 ex_ints (h_el_tol m_st) ex_E0 c_core ex_C (13 + 2 ^ 32)%N (score m_all (13 + 2 ^ 32)%N)).
    { apply m_cand. split; [reflexivity|]. split.
      - apply qz_true. vm_compute. reflexivity.
      - intros [E|[E|[]]]; vm_compute in E; discriminate. }
    destruct (C t (or_introl eq_refl)) as [x Cx]. specialize (B t x _ _ (or_introl eq_refl) Cx K ltac:(intros [E|[]]; congruence)).
    apply m_cand in Cx. destruct Cx as (-> & Nz & Nc).
    assert (AL : forallb (fun u => (u =? 13 + 2 ^ 32)%N || qlt (Qcabs (score m_all u)) (Qcabs (score m_all (13 + 2 ^ 32)%N))) (nodup N.eq_dec (map fst m_all)) = true) by (vm_compute; reflexivity).
    rewrite forallb_forall in AL. specialize (AL t (score_in _ _ Nz)). apply orb_true_iff in AL. destruct AL as [E|E].
    + apply N.eqb_eq in E. contradiction.
    + apply qlt_true in E. exact (Qclt_not_le _ _ E B).
  - cbn. lia.
  - cbn. lia.
  - vm_compute. reflexivity.
  - vm_compute. reflexivity.
  - apply Nat.ltb_lt. vm_compute. reflexivity.
  - apply c_nores.
  - apply c_pairs.
  - exact m_no_ties.
  - exists [(13 + 2 ^ 32)%N]. split; [nodupx|]. split; [reflexivity|]. intros t [<-|[]]. exists (score m_all (13 + 2 ^ 32)%N). apply m_cand. split; [reflexivity|]. split.
    + apply qz_true. vm_compute. reflexivity.
    + intros [E|[E|[]]]; vm_compute in E; discriminate.
Qed.
Definition px_csr : csr := mk_csr 3 3 0 [0; 3; 6; 9] [0; 1; 2; 0; 1; 2; 0; 1; 2]
  [inject 13; (- inject 8)%Qc; inject 4; (- inject 8)%Qc; inject 13; inject 4; inject 4; inject 4; inject 9].
Lemma csr_eq (a b : res csr) : (match a, b with Ok x, Ok y => (csr_m x =? csr_m y) && (csr_n x =? csr_n y) && (csr_ind x =? csr_ind y) &&
  (if list_eq_dec Nat.eq_dec (rowptr x) (rowptr y) then true else false) && (if list_eq_dec Nat.eq_dec (colind x) (colind y) then true else false) &&
  (if list_eq_dec Qc_eq_dec (nzval x) (nzval y) then true else false) | _, _ => false end) = true -> a = b.
Proof.
  destruct a as [[m n i r c z]|], b as [[m' n' i' r' c' z']|]; cbn [csr_m csr_n csr_ind rowptr colind nzval]; try discriminate.
  repeat (destruct (list_eq_dec _ _ _); [subst|rewrite ?andb_false_r; discriminate]). rewrite !andb_true_r, !andb_true_iff, !Nat.eqb_eq. intros [[-> ->] ->]. reflexivity.
Qed.
Lemma px_matrix : make_csr_hamiltonian 64 ex_ints 0%Qc px_new = Ok px_csr.
Proof. apply csr_eq. vm_compute. reflexivity. Qed.
Lemma px_ci : selected_ci_diag px_root px_syev 64 ex_ints px_new 0%Qc 3 (inject 2) [] (Ok (0%Qc, [inject 4; inject 4; 1%Qc])).
Proof.
  unfold selected_ci_diag. eapply det_intro; [exact px_matrix|].
  destruct (ci_built 64 ex_ints 0%Qc px_new 3 1) as (H & EH & CL & _); [left; reflexivity|vm_compute; lia|apply px_sym|exact px_new_valid|apply Qcle_refl|].
  assert (H = px_csr) by (pose proof px_matrix; congruence). subst H. clear EH.
  apply (serial_back _ _ px_csr (csr_entry px_csr) 3 (inject 2) [] 1); [exact CL|cbn; lia|reflexivity|intros [|j]; reflexivity|].
  change (csr_m px_csr) with 3. change (Nat.min 3 3) with 3.
  match goal with |- context [diag_of_matrix 3 ?A] => replace (diag_of_matrix 3 A) with [inject 13; inject 13; inject 9] by reflexivity end.
  change (unit_vector 3 (min_element [inject 13; inject 13; inject 9])) with [0%Qc; 0%Qc; 1%Qc].
  unfold davidson_run. cbv zeta. run0. run0.
  mvs [inject 4; inject 4; inject 9]. run0. run0. run0.
  apply (det_intro _ _ [inject 4; inject 4; 0%Qc]); [qv|].
  run0. change (3 - 1) with 2. cbn [davidson_loop]. run0. run0. mvs [inject 20; inject 20; inject 32]. run0.
  apply (det_intro _ _ ([0%Qc; 0%Qc], [1%Qc; 1%Qc; 1%Qc; 1%Qc])).
  { unfold rayleigh_ritz. match goal with |- bind ?m _ = _ => destruct m eqn:E end; [reflexivity|]. vm_compute in E. discriminate. }
  cbv beta iota. run0.
  apply (det_intro _ _ [inject 4; inject 4; 1%Qc]); [qv|].
  apply (det_intro _ _ [inject 24; inject 24; inject 41]); [qv|].
  apply (det_intro _ _ (inject 2833)); [apply q_ok; vm_compute; reflexivity|].
  replace (qlt (px_root (inject 2833)) (inject 2)) with true by (vm_compute; reflexivity). reflexivity.
Qed.
Lemma px_syev_lengths k M W C : px_syev k M = Ok (W, C) -> k <= length W /\ k * k <= length C.
Proof. unfold px_syev. intros H. injection H as <- <-. rewrite !repeat_length. lia. Qed.
Lemma int_max_16 : 16 < Z.to_nat INT_MAX.
Proof. apply Nat2Z.inj_lt. Local Transparent INT_MAX. rewrite Z2Nat.id by (unfold INT_MAX; lia). unfold INT_MAX. Local Opaque INT_MAX. lia. Qed.
Lemma px_parallel dbg : always (p_selected_ci_diag px_root px_syev dbg 64 ex_ints px_new 0%Qc 3 3 (inject 2) (repeat [] 3))
  (fun r => fst r = repeat 0%Qc 3 /\ concat (snd r) = [inject 4; inject 4; 1%Qc]).
Proof.
  apply (p_ci_agrees px_root px_syev 64 ex_ints 0%Qc px_new 3 1 3 3 (inject 2) (repeat [] 3) []); [left; reflexivity|vm_compute; lia|apply px_sym|exact px_new_valid|apply Qcle_refl|lia|cbn; lia|cbn; lia|reflexivity|apply (nth_nils 3)|intros [|j]; reflexivity|
    exact px_syev_lengths|cbn; lia|exact int_max_16| |exact px_ci].
  intros i Hi. cbn in Hi. lia.
Qed.
Definition px_s' : wfn_state := (0%Qc, px_new, [inject 4; inject 4; 1%Qc]).
Lemma px_reorder : always (reorder_ci_on_coeff c_core ex_C) (fun wX => wX = (c_core, ex_C)).
Proof.
  eapply always_weaken; [|apply (reorder_ok c_core ex_C); reflexivity]. cbn beta. intros [w X] (L & Pm & S). cbn [fst snd] in *.
  cbn [combine c_core ex_C] in Pm. apply Permutation_length_2_inv in Pm.
  destruct w as [|a [|b [|c w]]], X as [|x [|y [|z X]]]; cbn [length combine] in *; try lia; destruct Pm as [E|E]; try discriminate E.
  - injection E as -> -> -> ->. reflexivity.
  - exfalso. injection E as -> -> -> ->. inversion S as [|? ? _ F]. apply Forall_inv in F. revert F. apply Qclt_not_le. vm_compute. reflexivity.
Qed.
Lemma always_bind_in {A B} (m : nd A) (k : A -> nd B) (R : A -> Prop) Q : always m R -> (forall x, m (Ok x) -> R x -> always (k x) Q) -> always (nbind m k) Q.
Proof. intros H1 H2. apply (always_bind m k (fun x => m (Ok x) /\ R x)); [|intros x [? ?]; auto]. destruct H1 as [E F]. split; [exact E|]. intros r Hr. destruct (F r Hr) as (x & -> & HR). eauto. Qed.
Lemma px_iter g : always (asci_iter_mpi px_root px_syev px_par g true 64 px_st ex_ints 3 px_s) (fun ss => ss = [px_s'; px_s'; px_s']).
Proof.
  unfold asci_iter_mpi, px_s. cbv beta iota.
  eapply always_bind; [exact px_reorder|]. intros wX ->. cbn [fst snd].
  change (firstn (Nat.min (ncdets_max px_st) (length c_core)) c_core) with c_core.
  eapply always_bind; [apply px_search|]. intros new ->. cbn [p_thr p_ranks p_sub p_tol px_par].
  eapply always_bind_in; [apply px_parallel|]. cbn beta. intros [Es Ys] HD [HE HY]. cbn [fst snd] in *. subst Es.
  pose proof (diag_gather px_root px_syev 64 (or_introl eq_refl) ex_ints ltac:(vm_compute; lia) px_sym px_par true 3 1 ltac:(intros _; cbn; lia) ltac:(cbn; lia) (Qcle_refl _) px_new (repeat 0%Qc 3) Ys ex_C (conj px_nodup px_new_valid) ltac:(cbn; lia) HD) as G.
  eapply (always_bind _ _ (fun x => x = repeat (concat Ys) 3)); [apply (always_det _ _ _ G); reflexivity|]. intros Xs ->.
  apply always_ret. rewrite HY. reflexivity.
Qed.
Lemma px_grow fuel g : 1 <= fuel -> always (asci_grow_mpi px_root px_syev fuel px_par g true 64 px_st ex_ints px_s) (fun s => s = px_s').
Proof.
  intros Hf. destruct fuel as [|f]; [lia|]. cbn [asci_grow_mpi]. change px_s with (ex_E0, c_core, ex_C). cbv beta iota.
  change (length c_core <? ntdets_max px_st) with true. cbv beta iota.
  change (Nat.min (Nat.max (ntdets_min px_st) (length c_core * grow_factor px_st)) (ntdets_max px_st)) with 3.
  eapply always_bind; [exact (px_iter (g f))|]. intros ss ->.
  eapply (always_bind _ _ (fun x => x = px_s')); [apply (always_det _ px_s'); [exact (common_repeat px_s' 3 ltac:(lia))|reflexivity]|]. intros s ->.
  change (length (snd (fst px_s')) <? 3) with false. cbv beta iota.
  destruct f; cbn [asci_grow_mpi]; change (length (snd (fst px_s')) <? ntdets_max px_st) with false; apply always_ret; reflexivity.
Qed.

(** one determinant of three alpha electrons and one beta electron, the lowest of the sixteen *)
Definition low_ints : ints := mk_ints 4 (fun p q => if p =? q then (inject (p + q + 1) - inject 10)%Qc else inject (p + q + 1))
  (fun p q r s => inject ((p + q + 1) * (r + s + 1))).
Definition low_D : N := (11 + 2 ^ 32)%N.
Definition all16 : list N := flat_map (fun b => map (fun a => (a + b * 2 ^ 32)%N) [7; 11; 13; 14]%N) [1; 2; 4; 8]%N.
Lemma all16_ok t : in_space 64 4 t -> size_is (alpha 64 t) 3 -> size_is (beta 64 t) 1 -> In t all16.
Proof.
  intros G A B. destruct (hilbert_spec 64 4 3 1 eq_refl ltac:(cbn; lia) ltac:(lia) ltac:(lia)) as (l & _ & Nd & L & M).
  assert (I : incl l all16).
  { apply NoDup_length_incl.
    - assert (K : nodup N.eq_dec all16 = all16) by (vm_compute; reflexivity). rewrite <- K. apply NoDup_nodup.
    - rewrite L. vm_compute. lia.
    - intros u Hu. apply M. unfold all16 in Hu. apply in_flat_map in Hu. destruct Hu as (b & Hb & Hu). apply in_map_iff in Hu. destruct Hu as (a & <- & Ha).
      destruct Hb as [<-|[<-|[<-|[<-|[]]]]], Ha as [<-|[<-|[<-|[<-|[]]]]]; (split; [spc|split; sz]). }
  apply I, M. auto.
Qed.
Lemma low_ex : in_space 64 4 low_D /\ size_is (alpha 64 low_D) 3 /\ size_is (beta 64 low_D) 1 /\
  (ham 64 4 (T_pq low_ints) (V_pqrs low_ints) low_D low_D < - (0))%Qc /\
  forall t, in_space 64 4 t -> size_is (alpha 64 t) 3 -> size_is (beta 64 t) 1 -> t <> low_D ->
    (ham 64 4 (T_pq low_ints) (V_pqrs low_ints) low_D low_D < ham 64 4 (T_pq low_ints) (V_pqrs low_ints) t t)%Qc.
Proof.
  split; [spc|]. split; [sz|]. split; [sz|]. split; [vm_compute; reflexivity|]. intros t G A B Ne. pose proof (all16_ok t G A B) as I.
  assert (AL : forallb (fun u => (u =? low_D)%N || qlt (ham 64 4 (T_pq low_ints) (V_pqrs low_ints) low_D low_D) (ham 64 4 (T_pq low_ints) (V_pqrs low_ints) u u)) all16 = true) by (vm_compute; reflexivity).
  rewrite forallb_forall in AL. specialize (AL t I). apply orb_true_iff in AL. destruct AL as [E|E]; [apply N.eqb_eq in E; contradiction|]. apply qlt_true, E.
Qed.
Lemma low_ex' : in_space 64 4 low_D /\ size_is (alpha 64 low_D) 3 /\ size_is (beta 64 low_D) 1 /\
  (ham 64 4 (T_pq low_ints) (V_pqrs low_ints) low_D low_D < - (0))%Qc /\
  (forall t, in_space 64 4 t -> size_is (alpha 64 t) 3 -> size_is (beta 64 t) 1 -> t <> low_D ->
    (ham 64 4 (T_pq low_ints) (V_pqrs low_ints) low_D low_D < ham 64 4 (T_pq low_ints) (V_pqrs low_ints) t t)%Qc) /\
  Nat.min (Nat.max (ntdets_min px_st) (grow_factor px_st)) (ntdets_max px_st) mod 2 <> 0.
Proof. destruct low_ex as (A & B & C & D & E). repeat (split; [assumption|]). cbn. discriminate. Qed.

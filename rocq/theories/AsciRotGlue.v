(** Glue for Props_AsciRot. *)
From Coq Require Import QArith Qcanon Bool.
From Verif Require Import Base SD Spec FockSpec Sums Nondet SlaterCondon Ham PropsHamGlue Mem MemProofs Dense DenseSpec DenseProofs DiisSpec DavSpec DavEx
  Mcscf McscfSpec CasciSpec McscfGlue2 Asci AsciSpec AsciIter AsciGlue AsciRot AsciRotSpec AsciRotProofs AsciRotProofs2 AsciRotEx.
Local Open Scope nat_scope.

Lemma c61_grow : forall syev W n na nb dbg st rs dg fuel TV s,
  all_eigenpairs syev -> spin_width W -> 0 < n -> n <= W / 2 ->
  (dbg = true -> na < n /\ nb < n) -> one_each dg ->
  (N.of_nat (ntdets_max st) < 2 ^ 64)%N -> 2 <= grow_factor st ->
  n * n <= length (fst TV) -> n * n * (n * n) <= length (snd TV) ->
  pair_symmetric n (at4 (snd TV) n) ->
  1 <= wfn_size s -> wfn_size s <= ntdets_max st -> valid_dets W n na nb (wfn_dets s) ->
  if_returns (asci_grow_rot syev fuel dbg W n st rs dg TV s) (fun r =>
    wfn_size (fst r) = ntdets_max st /\ valid_dets W n na nb (wfn_dets (fst r)) /\
    length (fst (snd r)) = length (fst TV) /\ length (snd (snd r)) = length (snd TV) /\
    exists l, last ((s, TV) :: l) (s, TV) = r /\
      path (grow_pass W n dbg st (grow_with_rot rs) (rot_size_start rs) dg) ((s, TV) :: l)).
Proof. intros. apply (grow_rot_ok syev W n na nb); try assumption. split; assumption. Qed.
Lemma c61_orthogonal : forall syev W n na nb dbg st rs dg fuel TV s,
  all_eigenpairs syev -> spin_width W -> 0 < n -> n <= W / 2 ->
  (dbg = true -> na < n /\ nb < n) -> one_each dg ->
  (N.of_nat (ntdets_max st) < 2 ^ 64)%N -> 2 <= grow_factor st ->
  n * n <= length (fst TV) -> n * n * (n * n) <= length (snd TV) ->
  pair_symmetric n (at4 (snd TV) n) ->
  1 <= wfn_size s -> wfn_size s <= ntdets_max st -> valid_dets W n na nb (wfn_dets s) ->
  if_returns (asci_grow_rot syev fuel dbg W n st rs dg TV s) (fun r =>
    exists U, rotated n U (at2 (fst TV) n) (at4 (snd TV) n) (at2 (fst (snd r)) n) (at4 (snd (snd r)) n)).
Proof.
  intros. eapply returns_weaken; [|apply (c61_grow syev W n na nb); eassumption].
  intros r (_ & _ & _ & _ & l & El & Pl). exact (path_rotated W n dbg st rs dg l (s, TV) r Pl El).
Qed.
Lemma c61_term : forall syev W n dbg st rs dg, 2 <= grow_factor st -> forall f f' TV s, 1 <= wfn_size s ->
  ntdets_max st - wfn_size s <= f -> ntdets_max st - wfn_size s <= f' ->
  forall r, asci_grow_rot syev f dbg W n st rs dg TV s r <-> asci_grow_rot syev f' dbg W n st rs dg TV s r.
Proof. intros. split; apply grow_rot_fuel; assumption. Qed.
Lemma c61_off : forall syev W n dbg st rs dg, grow_with_rot rs = false -> forall f TV s,
  n * n <= length (fst TV) -> n * n * (n * n) <= length (snd TV) -> forall r,
  asci_grow_rot syev f dbg W n st rs dg TV s r <->
  exists r0, asci_grow f dbg W st (held n TV) (dg (held n TV)) s r0 /\
    r = match r0 with Ok s' => Ok (s', TV) | Err e => Err e end.
Proof. exact grow_rot_off. Qed.
Lemma lowest_unique k M a b u v : lowest_eigenpair k M a u -> lowest_eigenpair k M b v -> a = b.
Proof.
  assert (W : forall a b u v, lowest_eigenpair k M a u -> lowest_eigenpair k M b v -> (a <= b)%Qc).
  { intros a0 b0 u0 v0 (_ & _ & L) (N1 & E & _). specialize (L v0).
    replace (Sigma k (fun i => v0 i * Sigma k (fun j => M i j * v0 j)))%Qc with (b0 * norm2 k v0)%Qc in L.
    - rewrite N1 in L. rewrite !Qcmult_1_r in L. exact L.
    - unfold norm2. rewrite <- Sigma_scale. apply Sigma_ext. intros i Hi. rewrite E by exact Hi. ring. }
  intros A B. apply Qcle_antisym; eauto.
Qed.
Lemma qc_ne a b : nz (a - b) = true -> a <> b.
Proof. intros H E. apply (nz_ok _ H). rewrite E. ring. Qed.
Lemma c61_energy : exists syev W n na nb dbg st rs (dg : ints -> diag) (TV : list Qc * list Qc) s,
  all_eigenpairs syev /\ spin_width W /\ 0 < n /\ n <= W / 2 /\
  (forall h dets E X, dg h dets (Ok (E, X)) ->
     length X = length dets /\ lowest_eigenpair (length dets) (ci_matrix W h 0 dets) E (fun i => nth i X 0%Qc)) /\
  n * n = length (fst TV) /\ n * n * (n * n) = length (snd TV) /\ pair_symmetric n (at4 (snd TV) n) /\
  (N.of_nat (ntdets_max st) < 2 ^ 64)%N /\ 2 <= grow_factor st /\ wfn_size s = 1 /\ valid_dets W n na nb (wfn_dets s) /\
  (dbg = true -> na < n /\ nb < n) /\
  forall fuel, 1 <= fuel -> always (asci_grow_rot syev fuel dbg W n st rs dg TV s) (fun r =>
    forall x c, lowest_eigenpair (wfn_size (fst r)) (ci_matrix W (held n (snd r)) 0 (wfn_dets (fst r))) x c ->
      wfn_energy (fst r) <> x).
Proof.
  exists rx_syev, 64, 2, 1, 1, true, rx_st, rx_rs, rx_dg, (rx_T, rx_V), rx_s0.
  split; [exact rx_syev_ok|]. split; [left; reflexivity|]. split; [lia|]. split; [vm_compute; lia|].
  split; [exact rx_dg_ok|]. split; [reflexivity|]. split; [reflexivity|]. split; [exact rx_sym|]. split; [reflexivity|]. split; [vm_compute; lia|].
  split; [reflexivity|]. split. { split; [unfold wfn_dets; cbn [rx_s0 fst snd]; nodupx|]. intros D [<-|[]]. split; [spc|split; sz]. }
  split; [lia|]. intros [|f] Hf; [lia|]. eapply always_weaken; [|exact (rx_run f)]. intros r -> x c L.
  rewrite (lowest_unique _ _ _ _ _ _ L rx_truth). unfold rx_s1. cbn [fst wfn_energy]. apply qc_ne. vm_compute. reflexivity.
Qed.
Lemma c61_ex : all_eigenpairs rx_syev /\ one_each rx_dg /\ (N.of_nat (ntdets_max rx_st) < 2 ^ 64)%N /\ 2 <= grow_factor rx_st /\
  length rx_T = 2 * 2 /\ length rx_V = 2 * 2 * (2 * 2) /\ pair_symmetric 2 (at4 rx_V 2) /\ wfn_size rx_s0 = 1 /\ ntdets_max rx_st = 2 /\
  valid_dets 64 2 1 1 (wfn_dets rx_s0) /\
  forall fuel, 1 <= fuel -> always (asci_grow_rot rx_syev fuel true 64 2 rx_st rx_rs rx_dg (rx_T, rx_V) rx_s0)
    (fun r => r = (rx_s1, (rx_T', rx_V')) /\ rx_T' <> rx_T).
Proof.
  split; [exact rx_syev_ok|]. split; [intros h dets E X H; apply (rx_dg_ok h dets E X H)|]. split; [reflexivity|]. split; [vm_compute; lia|]. split; [reflexivity|]. split; [reflexivity|].
  split; [exact rx_sym|]. split; [reflexivity|]. split; [reflexivity|].
  split. { split; [unfold wfn_dets; cbn [rx_s0 fst snd]; nodupx|]. intros D [<-|[]]. split; [spc|split; sz]. }
  intros [|f] Hf; [lia|]. eapply always_weaken; [|exact (rx_run f)]. intros r ->. split; [reflexivity|].
  intros E. apply (f_equal (fun l => nth 0 l 0%Qc)) in E. revert E. apply qc_ne. vm_compute. reflexivity.
Qed.

(** Glue for Props_AsciRotPar. *)
From Coq Require Import QArith Qcanon Bool.
From Verif Require Import Base Nondet SD Spec Sums FockSpec SlaterCondon Ham Mem MemProofs Mcscf Dense DenseSpec DiisSpec DavSpec DavProofs2 McscfSpec CasciSpec McscfProofs
  Asci AsciSpec AsciIter Constraint Collective CollectiveSpec CollectiveProofs AsciMpi Davidson AsciPar AsciParSpec AsciParProofs4 AsciRot AsciRotSpec AsciRotProofs AsciRotProofs2 AsciRotPar AsciRotParSpec AsciRotParProofs.
Local Open Scope nat_scope.
Local Opaque INT_MAX.

Lemma c72_grow : forall root syevD syev W n na nb p dbg st rs fuel g TV s,
  all_eigenpairs syev -> spin_width W -> 0 < n -> n <= W / 2 -> (dbg = true -> na < n /\ nb < n) ->
  1 < p_ranks p -> (0 <= p_thr p)%Qc -> (Z.of_nat (ntdets_max st * p_ranks p) < 2 ^ 31)%Z -> 1 <= grow_factor st ->
  length (fst TV) = n * n -> length (snd TV) = n * n * (n * n) -> pair_symmetric n (at4 (snd TV) n) ->
  wfn_size s <= ntdets_max st -> valid_dets W n na nb (wfn_dets s) -> length (snd s) = wfn_size s ->
  if_returns (asci_grow_rot_mpi root syevD syev fuel p g dbg W n st rs TV s) (fun r =>
    wfn_size (fst r) = ntdets_max st /\ valid_dets W n na nb (wfn_dets (fst r)) /\
    length (fst (snd r)) = n * n /\ length (snd (snd r)) = n * n * (n * n) /\
    exists l, last ((s, TV) :: l) (s, TV) = r /\
      path (grow_pass_mpi root W n (p_thr p) (p_tol p) st (grow_with_rot rs) (rot_size_start rs)) ((s, TV) :: l)).
Proof.
  intros. eapply returns_weaken; [|apply (grow_rot_mpi_ok root syevD syev W n na nb); auto; lia].
  intros r (A & B & [C D] & E). auto.
Qed.
Lemma c72_orthogonal : forall root syevD syev W n na nb p dbg st rs fuel g TV s,
  all_eigenpairs syev -> spin_width W -> 0 < n -> n <= W / 2 -> (dbg = true -> na < n /\ nb < n) ->
  1 < p_ranks p -> (0 <= p_thr p)%Qc -> (Z.of_nat (ntdets_max st * p_ranks p) < 2 ^ 31)%Z -> 1 <= grow_factor st ->
  length (fst TV) = n * n -> length (snd TV) = n * n * (n * n) -> pair_symmetric n (at4 (snd TV) n) ->
  wfn_size s <= ntdets_max st -> valid_dets W n na nb (wfn_dets s) -> length (snd s) = wfn_size s ->
  if_returns (asci_grow_rot_mpi root syevD syev fuel p g dbg W n st rs TV s) (fun r =>
    exists U, rotated n U (at2 (fst TV) n) (at4 (snd TV) n) (at2 (fst (snd r)) n) (at4 (snd (snd r)) n)).
Proof.
  intros. eapply returns_weaken; [|apply (c72_grow root syevD syev W n na nb); assumption].
  intros r (_ & _ & _ & _ & l & El & Pl). exact (path_mpi_rotated root W n p st rs l (s, TV) r Pl El).
Qed.
(* a number of orbitals that a determinant can hold: the broadcasts are short enough *)
Lemma bcast_fits W n : spin_width W -> n <= W / 2 -> n * n * (n * n) < Z.to_nat INT_MAX.
Proof.
  intros HW Hn. assert (Hn' : n <= 64).
  { destruct HW as [->| ->]; [change (64 / 2) with 32 in Hn|change (128 / 2) with 64 in Hn]; lia. }
  assert (A : n * n <= 64 * 64) by nia. assert (B : n * n * (n * n) <= 64 * 64 * (64 * 64)) by (apply Nat.mul_le_mono; exact A).
  apply Nat2Z.inj_lt. rewrite Z2Nat.id by (vm_compute; discriminate). Local Transparent INT_MAX. unfold INT_MAX. Local Opaque INT_MAX.
  apply Nat2Z.inj_le in B. eapply Z.le_lt_trans; [exact B|]. rewrite !Nat2Z.inj_mul. reflexivity.
Qed.
Lemma c72_same : forall syev P W n wfn X T V C T' V' ONS, 1 < P -> spin_width W -> 0 < n -> n <= W / 2 ->
  length T = n * n -> length V = n * n * (n * n) -> length C = n * n ->
  natural_orbitals syev W n wfn X = Ok (ONS, C) -> rotate_integrals n C T V = Ok (T', V') ->
  bcast (n * n) 0 (T' :: repeat T (P - 1)) = Ok (repeat T' P) /\
  bcast (n * n * (n * n)) 0 (V' :: repeat V (P - 1)) = Ok (repeat V' P) /\
  rotate_integrals_mpi syev P W n wfn X T V = Ok (T', V').
Proof.
  intros syev P W n wfn X T V C T' V' ONS HP HW H0 Hn LT LV LC EN ER.
  destruct (rotate_ok W n H0 Hn C T V LC) as (T1 & V1 & E & L1 & L2 & _); [unfold roomy; cbn [fst snd]; lia|].
  rewrite ER in E. injection E as <- <-. pose proof (bcast_fits W n HW Hn) as B4.
  assert (B2 : n * n < Z.to_nat INT_MAX) by nia.
  assert (E1 : bcast (n * n) 0 (T' :: repeat T (P - 1)) = Ok (repeat T' P)) by (apply bcast_all; lia).
  assert (E2 : bcast (n * n * (n * n)) 0 (V' :: repeat V (P - 1)) = Ok (repeat V' P)) by (apply bcast_all; lia).
  split; [exact E1|]. split; [exact E2|]. unfold rotate_integrals_mpi. rewrite EN. cbn [bind snd]. rewrite ER. cbn [bind fst snd].
  rewrite E1. cbn [bind]. rewrite E2. cbn [bind]. rewrite !agreed_repeat by lia. reflexivity.
Qed.
Lemma c72_off : forall root syevD syev p g dbg W n st rs, grow_with_rot rs = false -> forall f TV s,
  n * n <= length (fst TV) -> n * n * (n * n) <= length (snd TV) -> forall r,
  asci_grow_rot_mpi root syevD syev f p g dbg W n st rs TV s r <->
  exists r0, asci_grow_mpi root syevD f p g dbg W st (held n TV) s r0 /\
    r = match r0 with Ok s' => Ok (s', TV) | Err e => Err e end.
Proof.
  intros root syevD syev p g dbg W n st rs Ho f TV. induction f as [|f IH]; intros [[E0 wfn] X] R1 R2 r; cbn [asci_grow_rot_mpi asci_grow_mpi].
  - destruct (_ <? _).
    + split; [intros ->; exists (Err Hang); split; reflexivity|]. intros (r0 & -> & ->). reflexivity.
    + split; [intros ->; eexists; split; reflexivity|]. intros (r0 & -> & ->). reflexivity.
  - destruct (_ <? _).
    2:{ split; [intros ->; eexists; split; reflexivity|]. intros (r0 & -> & ->). reflexivity. }
    destruct TV as [T V]. cbn [fst snd] in *. rewrite (span_held n T V) by (split; assumption). rewrite Ho. cbn [andb].
    set (k := Nat.min _ _). split.
    + intros [(e & He & ->)|(h & Hh & H)]; [discriminate|]. injection Hh as ->.
      destruct H as [(e & He & ->)|(ss & H1 & H)]; [exists (Err e); split; [left; eauto|reflexivity]|].
      destruct H as [(e & He & ->)|([[E wfn1] X1] & H2 & H)].
      { exists (Err e). split; [|reflexivity]. right. exists ss. split; [exact H1|]. left. eauto. }
      destruct (length wfn1 <? k) eqn:Ek.
      * red in H. subst r. exists (Err Throw). split; [|reflexivity]. right. exists ss. split; [exact H1|]. right. eexists. split; [exact H2|]. cbn [fst snd]. rewrite Ek. reflexivity.
      * apply IH in H; auto. destruct H as (r0 & H & ->). exists r0. split; [|reflexivity]. right. exists ss. split; [exact H1|]. right. eexists. split; [exact H2|]. cbn [fst snd]. rewrite Ek. exact H.
    + intros (r0 & H & ->). right. eexists. split; [reflexivity|].
      destruct H as [(e & He & ->)|(ss & H1 & H)]; [left; eauto|]. right. exists ss. split; [exact H1|].
      destruct H as [(e & He & ->)|([[E wfn1] X1] & H2 & H)]; [left; eauto|]. right. eexists. split; [exact H2|]. cbn [fst snd] in H. cbv beta iota zeta.
      destruct (length wfn1 <? k) eqn:Ek; [red in H; subst r0; exact eq_refl|]. apply IH; auto. eauto.
Qed.
Lemma c72_returns : forall root syevD syev W n p dbg st rs f g TV s m T' V' X', 0 < p_ranks p ->
  n * n <= length (fst TV) -> n * n * (n * n) <= length (snd TV) ->
  wfn_size s < ntdets_max st -> ntdets_max st <= Nat.max (ntdets_min st) (wfn_size s * grow_factor st) ->
  asci_iter_mpi root syevD p (g f) dbg W st (held n TV) (ntdets_max st) s (Ok (repeat m (p_ranks p))) ->
  wfn_size m = ntdets_max st -> grow_with_rot rs = true -> rot_size_start rs <= ntdets_max st ->
  grow_rotation_mpi root syevD syev p dbg W n (wfn_dets m) (snd m) (fst TV) (snd TV) (Ok (T', V', X')) ->
  asci_grow_rot_mpi root syevD syev (S f) p g dbg W n st rs TV s (Ok ((wfn_energy m, wfn_dets m, X'), (T', V'))).
Proof.
  intros root syevD syev W n p dbg st rs f g TV [[E0 wfn] X] [[E wfn1] X1] T' V' X' HP R1 R2 Hl Ht HI Hm Hr Hs HR.
  unfold wfn_size, wfn_dets, wfn_energy in *. cbn [fst snd] in *. cbn [asci_grow_rot_mpi].
  rewrite (proj2 (Nat.ltb_lt _ _) Hl). rewrite Nat.min_r by exact Ht.
  right. exists (held n TV). split; [destruct TV as [T V]; cbn [fst snd] in *; rewrite (span_held n T V) by (split; assumption); reflexivity|].
  right. exists (repeat (E, wfn1, X1) (p_ranks p)). split; [exact HI|].
  right. exists (E, wfn1, X1). split; [unfold det; symmetry; apply common_repeat, HP|]. cbv beta iota.
  rewrite (proj2 (Nat.ltb_ge _ _)) by lia. rewrite Hr, (proj2 (Nat.leb_le _ _)) by lia. cbn [andb].
  right. exists (T', V', X'). split; [exact HR|]. cbv beta iota.
  destruct f as [|f]; cbn [asci_grow_rot_mpi]; rewrite (proj2 (Nat.ltb_ge _ _)) by lia; reflexivity.
Qed.

(** The selection on several ranks, whatever it returns. *)
From Coq Require Import QArith Qcanon Sorting.Permutation Sorting.Sorted.
From Verif Require Import Base Nondet Bits SD Spec Sums FockSpec Ham Asci AsciSpec AsciSort AsciSearch AsciSearch2 AsciSearch3 AsciIter Constraint ConstraintSpec
  ConstraintSearch3 Collective CollectiveSpec CollectiveProofs QuickProofs AsciMpi AsciMpiProofs AsciParProofs2 SDProofs.
Local Open Scope nat_scope.

Lemma finalize_returns W cdets C l : (forall s, In s (map fst l) -> wf W s) -> (forall s, In s cdets -> wf W s) ->
  if_returns (finalize_pairs W cdets C l) (fun out => NoDup (map fst out) /\ forall s, In s (map fst out) -> In s (map fst l) /\ ~ In s cdets).
Proof.
  intros Wl Wc. unfold finalize_pairs. eapply returns_bind with (P := fun seeds =>
    (forall s v, In (s, v) seeds -> In s cdets) /\ forall s, In s cdets -> exists v, In (s, v) seeds /\ (0 <= v)%Qc).
  { apply returns_det. intros seeds E. split.
    - intros s v I. destruct (mapM_in _ _ _ _ E I) as (i & Hi & Ei). apply in_seq in Hi. destruct (at_ C i) as [c|]; [|discriminate]. cbn [bind] in Ei.
      injection Ei as <- _. apply nth_In. lia.
    - intros s I. apply (In_nth _ _ 0%N) in I. destruct I as (i & Hi & <-). apply mapM_Forall2 in E.
      assert (X : forall lo k (sd : list (N * Qc)), Forall2 (fun i b => (do c <- at_ C i; Ok (nth i cdets 0%N, Qcabs c)) = Ok b) (seq lo k) sd -> forall i, lo <= i < lo + k ->
         exists v, In (nth i cdets 0%N, v) sd /\ (0 <= v)%Qc).
      { intros lo k. revert lo. induction k as [|k IH]; intros lo sd F j Hj; [lia|]. cbn [seq] in F. inversion F as [|? b ? sd' H F']; subst.
        destruct (Nat.eq_dec j lo) as [->|].
        - destruct (at_ C lo) as [c|]; [|discriminate]. cbn [bind] in H. injection H as <-. exists (Qcabs c). split; [left; reflexivity|apply Qcabs_nonneg].
        - destruct (IH (S lo) sd' F' j ltac:(lia)) as (v & I & P). exists v. split; [right; exact I|exact P]. }
      exact (X 0 _ _ E i ltac:(lia)). }
  intros seeds (S1 & S2).
  set (scored := map (fun x : contrib => (fst x, (- Qcabs (snd x))%Qc)) l).
  assert (ES : map fst scored = map fst l) by (unfold scored; rewrite map_map; reflexivity).
  eapply returns_bind; [apply always_returns, keep_largest_ok|].
  { intros s Hs. rewrite map_app, in_app_iff, ES in Hs. destruct Hs as [Hs|Hs]; [apply Wl, Hs|].
    apply in_map_iff in Hs. destruct Hs as ([a b] & <- & Hs). apply Wc, (S1 _ _ Hs). }
  cbn beta. intros kp (Ks & Ki & Kv). eapply returns_bind; [apply always_returns, std_partition_always|]. cbn beta.
  intros [p1 p2] [P1 _]. cbn [fst snd] in P1 |- *. apply returns_ret. split.
  { eapply Permutation_NoDup; [apply Permutation_map, P1|]. apply NoDup_fst_filter, NoDup_sorted_lt, Ks. }
  intros s Hs. apply in_map_iff in Hs. destruct Hs as ([s' v] & E & Hs). cbn [fst] in E. subst s'.
  apply (Permutation_in _ (Permutation_sym P1)), filter_In in Hs. destruct Hs as [Hs Lt]. cbn [snd] in Lt. apply qlt_true in Lt. destruct (Kv _ _ Hs) as [H3 H4].
  assert (Nc : ~ In s cdets).
  { intros X. destruct (S2 s X) as (w & Iw & Pw). specialize (H4 w ltac:(apply in_or_app; auto)). apply (Qclt_not_le _ _ Lt). eapply Qcle_trans; eauto. }
  split; [|exact Nc]. apply in_app_iff in H3. destruct H3 as [H3|H3]; [|exfalso; apply Nc, (S1 _ _ H3)].
  rewrite <- ES. apply (in_map fst) in H3. exact H3.
Qed.

(** the gathered strings: if the collectives succeed no count has wrapped around *)
Lemma int_add_inv a b c : int_add IInt a b = Ok c -> c = (a + b)%Z /\ (- 2 ^ 31 <= c < 2 ^ 31)%Z.
Proof.
  unfold int_add. destruct (Z.leb_spec (- 2 ^ 31) (a + b)), (Z.ltb_spec (a + b) (2 ^ 31)); cbn [andb]; try discriminate. intros E. injection E as <-. auto.
Qed.
Lemma accumulate_range l : forall acc s, (- 2 ^ 31 <= acc < 2 ^ 31)%Z -> accumulate_z IInt acc l = Ok s -> (- 2 ^ 31 <= s < 2 ^ 31)%Z /\ s = (acc + sumz l)%Z.
Proof.
  induction l as [|x l IH]; intros acc s Ha H; cbn [accumulate_z] in H.
  - injection H as <-. cbn. split; [exact Ha|lia].
  - destruct (int_add IInt acc x) as [c|] eqn:E; [|discriminate]. cbn [bind] in H. apply int_add_inv in E. destruct E as [-> R].
    destruct (IH _ _ R H) as [A B]. split; [exact A|]. rewrite B. unfold sumz. cbn [fold_right]. lia.
Qed.
Lemma exclusive_len l : forall acc s, exclusive_scan_z IInt acc l = Ok s -> length s = length l.
Proof.
  induction l as [|x l IH]; intros acc s H; cbn [exclusive_scan_z] in H; [injection H as <-; reflexivity|].
  destruct (int_add IInt acc x) as [c|]; [|discriminate]. cbn [bind] in H. destruct (exclusive_scan_z IInt (to_int c) l) as [r|] eqn:E; [|discriminate]. cbn [bind] in H.
  injection H as <-. cbn [length]. f_equal. eapply IH. exact E.
Qed.
Lemma allgatherv_blocks {A} (bd : list (list A * Z)) : forall (buf out : list A),
  fold_left (fun r (bd : list A * Z) => do buf <- r;
      if ((0 <=? snd bd) && (snd bd + Z.of_nat (length (fst bd)) <=? Z.of_nat (length buf)))%Z
      then Ok (set_range (Z.to_nat (snd bd)) (fst bd) buf) else Err UB) bd (Ok buf) = Ok out ->
  forall b, In b bd -> (Z.of_nat (length (fst b)) <= Z.of_nat (length buf))%Z.
Proof.
  assert (EE : forall e l, fold_left (fun r (bd : list A * Z) => do buf <- r;
      if ((0 <=? snd bd) && (snd bd + Z.of_nat (length (fst bd)) <=? Z.of_nat (length buf)))%Z
      then Ok (set_range (Z.to_nat (snd bd)) (fst bd) buf) else Err UB) l (Err e) = Err e) by (induction l; [reflexivity|cbn [fold_left bind]; assumption]).
  induction bd as [|[b d] bd IH]; intros buf out H x Hx; [destruct Hx|]. cbn [fold_left bind fst snd] in H.
  destruct (Z.leb_spec 0 d); cbn [andb] in H; [|rewrite EE in H; discriminate].
  destruct (Z.leb_spec (d + Z.of_nat (length b)) (Z.of_nat (length buf))); [|rewrite EE in H; discriminate].
  destruct Hx as [<-|Hx]; [cbn [fst]; lia|]. specialize (IH _ _ H x Hx). rewrite set_range_length in IH by lia. exact IH.
Qed.
Lemma gathered_returns (keep : list (list N)) tot sz displ out :
  total_gather_and_exclusive_scan IInt (map (fun l : list N => to_int (Z.of_nat (length l))) keep) = Ok (tot, sz, displ) ->
  MPI_Allgatherv keep displ (repeat 0%N (Z.to_nat tot)) = Ok out -> out = concat keep /\ Z.to_nat tot = length (concat keep).
Proof.
  intros E1 E2. pose proof E1 as E3. unfold total_gather_and_exclusive_scan in E1.
  destruct (accumulate_z IInt 0 _) as [t|] eqn:EA; [cbn [bind] in E1|discriminate].
  destruct (exclusive_scan_z IInt 0 _) as [sc|] eqn:ES; [cbn [bind] in E1|discriminate]. injection E1 as <- <- <-.
  apply accumulate_range in EA; [|lia]. destruct EA as [R ET]. pose proof (exclusive_len _ _ _ ES) as LS. rewrite map_length in LS.
  assert (SM : forall d, In d keep -> (Z.of_nat (length d) < 2 ^ 31)%Z).
  { intros d Hd. apply (In_nth _ _ []) in Hd. destruct Hd as (i & Hi & <-).
    pose proof (allgatherv_blocks _ _ _ E2 (nth i keep [], nth i sc 0%Z)) as X. cbn [fst] in X. rewrite repeat_length in X. 
    assert (I : In (nth i keep [], nth i sc 0%Z) (combine keep sc)).
    { rewrite <- combine_nth by lia. apply nth_In. rewrite combine_length. lia. }
    specialize (X I). lia. }
  assert (E0 : map (fun l : list N => to_int (Z.of_nat (length l))) keep = lens keep).
  { apply map_ext_in. intros d Hd. apply to_int_id. specialize (SM d Hd). lia. }
  rewrite E0 in *. rewrite Z.add_0_l in ET. rewrite lens_sum in ET. subst t.
  assert (TG : (Z.of_nat (length (concat keep)), lens keep, sc) = (sumz (lens keep), lens keep, starts 0 (lens keep))).
  { rewrite (tgs_ok IInt (lens keep)) in E3; [|apply lens_nonneg|rewrite lens_sum; lia]. injection E3 as E4 E5. rewrite E5. rewrite E4. reflexivity. }
  injection TG as _ ->. rewrite MPI_Allgatherv_ok in E2 by (rewrite repeat_length, Nat2Z.id; reflexivity). injection E2 as <-. split; [reflexivity|apply Nat2Z.id].
Qed.

Lemma disj_concat (outs kept : list (list contrib)) :
  Forall2 (fun p q => NoDup (map fst q) /\ forall s, In s (map fst q) -> In s (map fst p)) outs kept ->
  (forall l1 o l2 t, outs = l1 ++ o :: l2 -> In t (map fst o) -> ~ In t (map fst (concat (l1 ++ l2)))) ->
  NoDup (map fst (concat kept)) /\ forall s, In s (map fst (concat kept)) -> In s (map fst (concat outs)).
Proof.
  induction 1 as [|p q ps qs [Nq Iq] F IH]; intros D; [split; [constructor|intros s []]|]. cbn [concat]. rewrite !map_app.
  destruct IH as [N1 I1].
  { intros l1 o l2 t E Ht X. apply (D (p :: l1) o l2 t); [rewrite E; reflexivity|exact Ht|]. cbn [app concat]. rewrite map_app, in_app_iff. auto. }
  split.
  - apply NoDup_app; [exact Nq|exact N1|]. intros t Ht X. apply (D [] p ps t eq_refl (Iq t Ht)). cbn [app]. apply I1, X.
  - intros s Hs. rewrite in_app_iff in *. destruct Hs; auto.
Qed.
Lemma firstn_In {A} n (l : list A) x : In x (firstn n l) -> In x l.
Proof. intros H. rewrite <- (firstn_skipn n l). apply in_or_app. auto. Qed.

Lemma select_returns_mpi fuel g W m cdets C pairs : (forall s, In s (map fst (concat pairs)) -> wf W s) -> (forall s, In s cdets -> wf W s) ->
  (forall l1 o l2 t, pairs = l1 ++ o :: l2 -> In t (map fst o) -> ~ In t (map fst (concat (l1 ++ l2)))) ->
  length cdets <= m -> (N.of_nat m < 2 ^ 64)%N ->
  if_returns (select_dets_mpi fuel g W m cdets C pairs) (fun out => exists sel, out = sel ++ cdets /\ NoDup sel /\
    length sel <= m - length cdets /\ forall t, In t sel -> In t (map fst (concat pairs)) /\ ~ In t cdets).
Proof.
  intros Wp Wc D L1 L2. unfold select_dets_mpi.
  eapply returns_bind; [apply mapND_returns with (R := fun p q => NoDup (map fst q) /\ forall s, In s (map fst q) -> In s (map fst p) /\ ~ In s cdets)|].
  { intros p Hp. apply finalize_returns; [|exact Wc]. intros s Hs. apply Wp. apply in_split in Hp. destruct Hp as (a & b & ->). rewrite concat_app. cbn [concat]. rewrite !map_app, !in_app_iff. auto. }
  cbn beta. intros kept F.
  destruct (disj_concat pairs kept) as [NK IK]; [|exact D|].
  { clear - F. induction F as [|p q ps qs [A B] F IH]; constructor; [split; [exact A|intros s Hs; apply B, Hs]|exact IH]. }
  assert (NC : forall s, In s (map fst (concat kept)) -> ~ In s cdets).
  { clear - F. induction F as [|p q ps qs [A B] F IH]; intros s Hs; [destruct Hs|]. cbn [concat] in Hs. rewrite map_app, in_app_iff in Hs. destruct Hs as [Hs|Hs]; [apply B, Hs|apply IH, Hs]. }
  eapply returns_bind; [apply returns_true|]. intros kths _.
  eapply returns_bind with (P := fun parts : list (list contrib * list contrib * list contrib) => exists kept', Forall2 (fun (k : list contrib) t => Permutation k (fst (fst t) ++ snd (fst t) ++ snd t)) kept' parts /\ exists rest, kept = kept' ++ rest).
  { intros parts HP. pose proof (mapND_returns (fun lk : list contrib * Qc =>
      leg_partition (fun p => qlt (snd lk) (Qcabs (snd p))) (fun p => qequal (Qcabs (snd p)) (snd lk)) (fst lk))
      (fun lk t => Permutation (fst lk) (fst (fst t) ++ snd (fst t) ++ snd t)) (combine kept kths)) as M.
    specialize (M ltac:(intros [lk v] _; cbn [fst snd]; eapply returns_weaken; [|apply always_returns, leg_partition_always]; cbn beta; intros [[a b] c] (P & _); cbn [fst snd]; exact P) parts HP).
    clear - M. revert kths parts M. induction kept as [|k kept IH]; intros kths parts M.
    - cbn [combine] in M. inversion M; subst. exists []. split; [constructor|]. exists []. reflexivity.
    - destruct kths as [|v kths]; cbn [combine] in M; [inversion M; subst; exists []; split; [constructor|]; exists (k :: kept); reflexivity|].
      inversion M as [|? t ? ts P M']; subst. destruct (IH kths ts M') as (kept' & F & rest & E). exists (k :: kept'). split; [constructor; [exact P|exact F]|]. exists rest. rewrite E. reflexivity. }
  intros parts (kept' & FP & rest & EK).
  set (keep := map (fun t : list contrib * list contrib * list contrib => map fst (fst (fst t) ++ snd (fst t))) parts).
  assert (KP : NoDup (concat keep) /\ forall s, In s (concat keep) -> In s (map fst (concat kept))).
  { assert (exists junk, Permutation (map fst (concat kept')) (concat keep ++ junk)) as (junk & PJ).
    { unfold keep. clear - FP. induction FP as [|k t ks ts P F (junk & IH)]; [exists []; constructor|]. cbn [concat map]. exists (map fst (snd t) ++ junk).
      rewrite map_app, (Permutation_map fst P), IH. rewrite !map_app, <- !app_assoc. apply Permutation_app_head, Permutation_app_head.
      rewrite !app_assoc. apply Permutation_app_tail, Permutation_app_comm. }
    rewrite EK, concat_app, map_app in *. split.
    - apply (NoDup_app_l' _ junk). apply (Permutation_NoDup PJ). apply NoDup_app_l' in NK. exact NK.
    - intros s Hs. apply in_or_app. left. apply (Permutation_in _ (Permutation_sym PJ)), in_or_app. auto. }
  destruct KP as [NKP IKP].
  eapply returns_bind with (P := fun tgs => total_gather_and_exclusive_scan IInt (map (fun l : list N => to_int (Z.of_nat (length l))) keep) = Ok tgs); [apply returns_det; auto|].
  intros [[tot sz] displ] ET. eapply returns_bind with (P := fun out => MPI_Allgatherv keep displ (repeat 0%N (Z.to_nat tot)) = Ok out); [apply returns_det; auto|].
  intros glob EG. destruct (gathered_returns keep tot sz displ glob ET EG) as [-> LT]. apply returns_ret.
  rewrite size_sub_ok by auto. set (k := m - length cdets). eexists. split; [reflexivity|].
  assert (X : forall t, In t (concat keep) -> In t (map fst (concat pairs)) /\ ~ In t cdets) by (intros t Ht; split; [apply IK, IKP, Ht|apply NC, IKP, Ht]).
  rewrite Nnat.Nat2N.id. destruct (N.ltb_spec (N.of_nat k) (Z.to_N tot)) as [Lk|Lk].
  - split; [|split].
    + apply (NoDup_app_l' _ (skipn k (concat keep))). rewrite firstn_skipn. exact NKP.
    + rewrite firstn_length. lia.
    + intros t Ht. apply X, (firstn_In _ _ _ Ht).
  - split; [exact NKP|]. split; [lia|exact X].
Qed.

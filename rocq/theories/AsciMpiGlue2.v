(** Examples and refutations for the collective helpers and the search on
    several ranks. *)
From Coq Require Import QArith Qcanon Sorting.Permutation Sorting.Sorted.
From Verif Require Import Base Nondet Bits BitsProofs SD Spec Sums
  FockSpec SlaterCondon Ham PropsHamGlue
  Asci AsciSpec AsciSort AsciSearch AsciSearch2 AsciSearch3 AsciGlue
  Constraint ConstraintSpec ConstraintSearch3 ConstraintGlue2
  Collective CollectiveSpec CollectiveProofs QuickProofs AsciMpi AsciMpiSpec AsciMpiProofs AsciMpiGlue.
Local Opaque allreduce_one INT_MAX.
Local Open Scope nat_scope.

(** ** collective helpers *)
Lemma c35_scan t vals : Forall (fun x => (0 <= x)%Z) vals -> (fold_right Z.add 0 vals < 2 ^ 31)%Z ->
  exists scan, total_gather_and_exclusive_scan t vals = Ok (fold_right Z.add 0%Z vals, vals, scan) /\
    length scan = length vals /\
    forall r, r < length vals -> nth_error scan r = Some (fold_right Z.add 0%Z (firstn r vals)).
Proof.
  intros F H. exists (starts 0 vals). split; [apply tgs_ok; auto|]. split; [apply starts_length|].
  intros r Hr. rewrite starts_nth by auto. reflexivity.
Qed.
Lemma c35_scan_wraps : exists total scan,
  total_gather_and_exclusive_scan ISize [(2 ^ 31)%Z; 5%Z] = Ok (total, [(2 ^ 31)%Z; 5%Z], scan) /\
  total = (2 ^ 31 + 5)%Z /\ nth_error scan 1 = Some (2 ^ 64 - 2 ^ 31)%Z.
Proof. do 2 eexists. split; [vm_compute; reflexivity|]. split; vm_compute; reflexivity. Qed.

Lemma reduced_spec {A} (op : list A -> A) dflt count send (old : list A) : count <= length old ->
  length (reduced op dflt count send old) = length old /\
  forall j, nth j (reduced op dflt count send old) dflt =
    if j <? count then op (map (fun b => nth j b dflt) send) else nth j old dflt.
Proof.
  intros H. unfold reduced. split; [rewrite app_length, map_length, seq_length, skipn_length; lia|].
  intros j. set (f := fun j => op (map (fun b => nth j b dflt) send)).
  assert (L : length (map f (seq 0 count)) = count) by (rewrite map_length, seq_length; auto).
  destruct (Nat.ltb_spec j count).
  - rewrite app_nth1 by lia. rewrite (nth_indep _ dflt (f 0)) by lia. rewrite map_nth, seq_nth by auto. reflexivity.
  - rewrite app_nth2 by lia. rewrite L. rewrite <- (firstn_skipn count old) at 2.
    rewrite (app_nth2 (firstn count old)) by (rewrite firstn_length; lia). rewrite firstn_length, Nat.min_l by auto. reflexivity.
Qed.
Lemma bcasted_spec {A} (dflt : A) count src (old : list A) : count <= length src -> count <= length old ->
  length (bcasted count src old) = length old /\
  forall j, nth j (bcasted count src old) dflt = nth j (if j <? count then src else old) dflt.
Proof.
  intros H1 H2. unfold bcasted. split; [rewrite app_length, firstn_length, skipn_length; lia|].
  intros j. assert (L : length (firstn count src) = count) by (rewrite firstn_length; lia).
  destruct (Nat.ltb_spec j count).
  - rewrite app_nth1 by lia. rewrite <- (firstn_skipn count src) at 2. rewrite app_nth1 by lia. reflexivity.
  - rewrite app_nth2 by lia. rewrite L. rewrite <- (firstn_skipn count old) at 2.
    rewrite (app_nth2 (firstn count old)) by (rewrite firstn_length; lia). rewrite firstn_length, Nat.min_l by auto. reflexivity.
Qed.
Notation reduces_to op dflt count send recv out :=
  (length out = length recv /\ forall r, r < length recv ->
     length (nth r out []) = length (nth r recv []) /\
     forall j, nth j (nth r out []) dflt =
       if j <? count then op (map (fun b => nth j b dflt) send) else nth j (nth r recv []) dflt).
Lemma nth_map' {A B} (f : A -> B) l r da db : r < length l -> nth r (map f l) db = f (nth r l da).
Proof. intros H. rewrite (nth_indep _ db (f da)) by (rewrite map_length; auto). apply map_nth. Qed.
Lemma c35_allreduce_chunked {A} (op : list A -> A) dflt refuse intmax count send recv :
  0 < intmax -> (refuse = true -> count < intmax) ->
  (forall b, In b send -> count <= length b) -> (forall b, In b recv -> count <= length b) ->
  exists out, allreduce_chunked refuse op dflt intmax count send recv = Ok out /\ reduces_to op dflt count send recv out.
Proof.
  intros Hi Hr Hs Hv. exists (map (reduced op dflt count send) recv). split.
  { apply allreduce_chunked_ok; auto; apply Forall_forall; auto. }
  rewrite map_length. split; auto. intros r Lr. rewrite (nth_map' _ recv r [] []) by auto.
  apply reduced_spec. apply Hv, nth_In, Lr.
Qed.
Lemma c35_allreduce {A} (op : list A -> A) dflt count send recv : (Z.of_nat count < 2 ^ 31 - 1)%Z ->
  (forall b, In b send -> count <= length b) -> (forall b, In b recv -> count <= length b) ->
  exists out, allreduce op dflt count send recv = Ok out /\ reduces_to op dflt count send recv out.
Proof.
  intros H. apply c35_allreduce_chunked; [pose proof int_max_pos; lia|]. intros _.
  assert (E : Z.of_nat (Z.to_nat INT_MAX) = (2 ^ 31 - 1)%Z) by (rewrite Z2Nat.id; [apply int_max_val|rewrite int_max_val; lia]). lia.
Qed.
Lemma c35_allreduce_refuses {A} (op : list A -> A) dflt count send recv : (2 ^ 31 - 1 <= Z.of_nat count)%Z ->
  allreduce op dflt count send recv = Err Throw.
Proof.
  intros H. apply allreduce_chunked_refuses; [pose proof int_max_pos; lia|].
  assert (E : Z.of_nat (Z.to_nat INT_MAX) = (2 ^ 31 - 1)%Z) by (rewrite Z2Nat.id; [apply int_max_val|rewrite int_max_val; lia]). lia.
Qed.
Lemma c35_allreduce_one {A} (op : list A -> A) dflt d : allreduce_one op dflt d = Ok (map (fun _ => op d) d).
Proof. apply allreduce_one_ok. Qed.
Notation copies_to dflt count root bufs out :=
  (length out = length bufs /\ forall r, r < length bufs ->
     length (nth r out []) = length (nth r bufs []) /\
     forall j, nth j (nth r out []) dflt = nth j (if j <? count then nth root bufs [] else nth r bufs []) dflt).
Lemma c35_bcast_chunked {A} (dflt : A) refuse intmax count root bufs :
  0 < intmax -> (refuse = true -> count < intmax) -> root < length bufs -> (forall b, In b bufs -> count <= length b) ->
  exists out, bcast_chunked refuse intmax count root bufs = Ok out /\ copies_to dflt count root bufs out.
Proof.
  intros Hi Hr Hs Hv. exists (map (bcasted count (nth root bufs [])) bufs). split.
  { apply bcast_chunked_ok; auto; [apply nth_error_nth'; auto|apply Forall_forall; auto]. }
  rewrite map_length. split; auto. intros r Lr. rewrite (nth_map' _ bufs r [] []) by auto.
  apply bcasted_spec; apply Hv, nth_In; auto.
Qed.
Lemma c35_bcast {A} (dflt : A) count root bufs : (Z.of_nat count < 2 ^ 31 - 1)%Z ->
  root < length bufs -> (forall b, In b bufs -> count <= length b) ->
  exists out, bcast count root bufs = Ok out /\ copies_to dflt count root bufs out.
Proof.
  intros H. apply c35_bcast_chunked; [pose proof int_max_pos; lia|]. intros _.
  assert (E : Z.of_nat (Z.to_nat INT_MAX) = (2 ^ 31 - 1)%Z) by (rewrite Z2Nat.id; [apply int_max_val|rewrite int_max_val; lia]). lia.
Qed.
Lemma c35_bcast_refuses {A} count root (bufs : list (list A)) : (2 ^ 31 - 1 <= Z.of_nat count)%Z ->
  bcast count root bufs = Err Throw.
Proof.
  intros H. apply bcast_chunked_refuses; [pose proof int_max_pos; lia|].
  assert (E : Z.of_nat (Z.to_nat INT_MAX) = (2 ^ 31 - 1)%Z) by (rewrite Z2Nat.id; [apply int_max_val|rewrite int_max_val; lia]). lia.
Qed.

(** ** selection *)
Lemma nat_gt_weak : weak_order (fun x y : nat => y <? x).
Proof.
  split.
  - intros x y H. apply Nat.ltb_lt in H. apply Nat.ltb_ge. lia.
  - intros x y z H1 H2. apply Nat.ltb_ge in H1, H2. apply Nat.ltb_ge. lia.
Qed.
Lemma nat_eq_ok x y : Nat.eqb x y = negb (y <? x) && negb (x <? y).
Proof. destruct (Nat.eqb_spec x y), (Nat.ltb_spec y x), (Nat.ltb_spec x y); cbn; auto; lia. Qed.
Lemma c34_ex : weak_order (fun x y : nat => y <? x) /\
  (forall x y, Nat.eqb x y = negb (y <? x) && negb (x <? y)) /\
  is_kth (fun x y => y <? x) 2 (concat [[3; 1]; []; [7; 3]]) 3 /\
  ~ is_kth (fun x y => y <? x) 2 (concat [[3; 1]; []; [7; 3]]) 7.
Proof.
  split; [apply nat_gt_weak|]. split; [apply nat_eq_ok|]. split.
  - split; [left; auto|]. split; apply Nat.leb_le; reflexivity.
  - intros (_ & _ & H). apply Nat.leb_le in H. discriminate.
Qed.
(* all ranks return the same value when ties are equal elements *)
Lemma c34_same {A} (dflt : A) lt eq : weak_order lt -> (forall x y, eq x y = negb (lt x y) && negb (lt y x)) ->
  (forall x y, lt x y = false -> lt y x = false -> x = y) ->
  forall fuel g k data, data <> [] -> (Z.of_nat (length (concat data)) < 2 ^ 31)%Z ->
  1 <= k -> k <= length (concat data) -> length (concat data) < fuel ->
  exists v, is_kth lt k (concat data) v /\
    always (dist_quickselect dflt lt eq fuel g k data) (fun vs => vs = map (fun _ => v) data).
Proof.
  intros WO EQ AS fuel g k data NE HT H1 HK HF.
  destruct (dist_quickselect_ok dflt lt eq WO EQ fuel g k data NE HT H1 HK HF) as [[r Hr] AL].
  destruct (AL r Hr) as (vs & -> & LV & FV). destruct vs as [|v vs]; [destruct data; [congruence|discriminate]|].
  inversion FV as [|? ? HV FV']; subst. exists v. split; auto. split; [eauto|].
  intros r Hr'. destruct (AL r Hr') as (ws & -> & LW & FW). exists ws. split; auto.
  assert (F : Forall (fun w => w = v) ws).
  { eapply Forall_impl; [|exact FW]. cbn beta. intros w Hw. symmetry.
    apply AS; [apply (is_kth_tie lt WO k _ _ _ HV Hw)|apply (is_kth_tie lt WO k _ _ _ Hw HV)]. }
  clear - LW F. revert ws LW F. induction data as [|d r IH]; intros [|w ws] L F; cbn [length map] in *; auto; try lia.
  inversion F; subst. f_equal. apply IH; auto.
Qed.
(* k = 0 *)
Lemma c34_zero_iter gi : always (qs_iter (fun x y => y <? x) Nat.eqb gi 0 [[5]; [5]]) (fun nx => nx = QNext 0 [[]; []]).
Proof.
  unfold qs_iter. cbn [map length].
    apply always_bind with (P := fun x => x = (2%Z, [1%Z;1%Z], [0%Z;1%Z])); [apply always_det with (a := (2%Z, [1%Z;1%Z], [0%Z;1%Z])); [vm_compute; reflexivity|reflexivity]|]. intros ? ->.
    cbn beta iota. change (Z.of_nat (length [[5]; [5]])) with 2%Z. cbn [Z.ltb Z.eqb Z.compare Pos.compare Pos.compare_cont Pos.eqb].
    change (to_size (2 - 1)) with 1%Z. rewrite Z.mod_1_r. change (to_size (to_int 0)) with 0%Z.
    apply always_bind with (P := fun x => x = 1); [apply always_det with (a := 1); [vm_compute; reflexivity|reflexivity]|]. intros ? ->.
    apply always_bind with (P := fun x => x = [5]); [apply always_det with (a := [5]); [vm_compute; reflexivity|reflexivity]|]. intros ? ->.
    apply always_bind with (P := fun x => x = 0%Z); [apply always_det with (a := 0%Z); [vm_compute; reflexivity|reflexivity]|]. intros ? ->.
    apply always_bind with (P := fun x => x = 5); [apply always_det with (a := 5); [vm_compute; reflexivity|reflexivity]|]. intros ? ->.
    eapply always_bind.
    { apply mapND_always with (R := fun (_ : list nat) t => t = ([], [5], @nil nat)).
      intros d Hd. assert (d = [5]) as -> by (destruct Hd as [<-|[<-|[]]]; auto).
      eapply always_weaken; [|apply leg_partition_always]. cbn beta. intros [[a b] c] (P & F1 & F2 & F3). cbn [fst snd] in *.
      assert (a = []) as ->. { destruct a as [|x a]; auto. exfalso. assert (In x [5]) by (apply Permutation_sym in P; apply (Permutation_in _ P); left; auto). destruct H as [<-|[]]. inversion F1; discriminate. }
      assert (c = []) as ->. { destruct c as [|x c]; auto. exfalso. assert (In x [5]) by (apply Permutation_sym in P; apply (Permutation_in _ P); cbn [app]; apply in_or_app; right; left; auto). destruct H as [<-|[]]. inversion F3 as [|? ? [_ X] _]; discriminate. }
      cbn [app] in P. rewrite app_nil_r in P. apply Permutation_length_1_inv in P. subst. reflexivity. }
    cbn beta. intros parts F. inversion F as [|? ? ? ? E1 F']; subst. inversion F' as [|? ? ? ? E2 F'']; subst. inversion F''; subst.
    cbn [map fst snd].
    eapply always_bind; [eapply always_det with (P := fun x => x = _); [apply allreduce_one_ok|reflexivity]|]. intros ? ->.
    eapply always_bind; [eapply always_det with (P := fun x => x = _); [apply allreduce_one_ok|reflexivity]|]. intros ? ->.
    apply always_ret. reflexivity.
Qed.
Lemma c34_zero fuel g : 2 <= fuel -> forall r,
  dist_quickselect 0 (fun x y => y <? x) Nat.eqb fuel g 0 [[5]; [5]] r -> r = Err UB.
Proof.
  intros Hf r Hr. destruct fuel as [|[|f]]; try lia. cbn [dist_quickselect qs_loop] in Hr.
  set (it := qs_iter (fun x y => y <? x) Nat.eqb (g 0) 0 [[5]; [5]]) in *.
  assert (A : always it (fun nx => nx = QNext 0 [[]; []])). apply c34_zero_iter.
  clearbody it. destruct A as [_ A].
  destruct Hr as [(e & He & ->)|(nx & Hnx & Hr)]; [destruct (A _ He) as (? & ? & _); discriminate|].
  destruct (A _ Hnx) as (? & E & ->). injection E as ->.
  assert (B : forall r', qs_iter (fun x y => y <? x) Nat.eqb (g 1) 0 [[]; []] r' -> r' = Ok (@QGather nat)).
  { intros r' Hr'. unfold qs_iter in Hr'. cbn [map length] in Hr'.
    destruct Hr' as [(e & He & ->)|(t & Ht & Hr')]; [vm_compute in He; discriminate|].
    unfold det in Ht. vm_compute in Ht. injection Ht as ->. cbn in Hr'. exact Hr'. }
  destruct Hr as [(e & He & ->)|(nx & Hnx2 & Hr)]; [apply B in He; discriminate|].
  apply B in Hnx2. injection Hnx2 as ->.
  apply gather_eq in Hr; [|vm_compute; reflexivity]. cbn [concat app mapND] in Hr.
  assert (D : forall r', kth_by_max (fun x y => y <? x) 0 (@nil nat) r' -> r' = Err UB).
  { intros r' [(e & He & ->)|(ab & Hab & Hr')].
    - unfold nth_element in He. cbn in He. destruct He as (l1 & l2 & He & _). discriminate.
    - unfold nth_element in Hab. cbn in Hab. destruct Hab as (l1 & l2 & E3 & P & L & _). injection E3 as ->.
      apply Permutation_nil in P. destruct l1; [|discriminate]. cbn [fst snd] in *. cbn [app] in P. subst l2. exact Hr'. }
  destruct Hr as [(e & He & ->)|(v & Hv & _)]; [apply D in He; injection He as ->; reflexivity|apply D in Hv; discriminate].
Qed.

(** ** the search *)
Definition tie_pairs : list (list contrib) := [[(1%N, 1%Qc); (2%N, 1%Qc)]; [(4%N, Q2Qc 2)]].
Lemma tie_scores v : is_kth qgreater 2 [1%Qc; 1%Qc; Q2Qc 2] v -> v = 1%Qc.
Proof.
  intros (I & _ & H). destruct I as [<-|[<-|[<-|[]]]]; auto. exfalso. revert H.
  assert (E : length (filter (fun x => negb (qgreater (Q2Qc 2) x)) [1%Qc; 1%Qc; Q2Qc 2]) = 1) by (vm_compute; reflexivity).
  rewrite E. lia.
Qed.
Lemma tie_wf s : In s [1; 2; 4; 8]%N -> wf 64 s.
Proof. intros H i Hi. destruct H as [<-|[<-|[<-|[<-|[]]]]]; unfold tb; apply N.bits_above_log2; cbn [N.log2 Pos.size]; lia. Qed.
Lemma c54_ties fuel g : 4 <= fuel ->
  always (select_dets_mpi fuel g 64 3 [8%N] [1%Qc] tie_pairs) (fun out => Permutation [1; 2; 8]%N out).
Proof.
  intros HF. unfold select_dets_mpi.
  eapply always_bind.
  { apply mapND_always with (R := fun p q => NoDup (map fst q) /\
       forall s v, In (s, v) q <-> exists x, cand [8%N] p s x /\ v = (- Qcabs x)%Qc).
    intros p Hp. apply finalize_ok.
    - destruct Hp as [<-|[<-|[]]]; nodupx.
    - intros s Hs. apply tie_wf. destruct Hp as [<-|[<-|[]]]; cbn in Hs |- *; tauto.
    - intros s [<-|[]]. apply tie_wf. cbn. auto.
    - cbn. auto. }
  cbn beta. intros kept F. inversion F as [|? k1 ? ? [N1 I1] F']; subst. inversion F' as [|? k2 ? ? [N2 I2] F'']; subst. inversion F''; subst. clear F F' F''.
  assert (A1 : Qcabs 1 = 1%Qc) by (vm_compute; apply Qc_is_canon; reflexivity).
  assert (A2 : Qcabs (Q2Qc 2) = Q2Qc 2) by (vm_compute; apply Qc_is_canon; reflexivity).
  assert (P1 : Permutation k1 [(1%N, (-(1))%Qc); (2%N, (-(1))%Qc)]).
  { apply NoDup_Permutation; [apply (NoDup_map_inv _ _ N1)|nodupx|]. intros [s v]. rewrite I1. unfold cand. split.
    - intros (x & ([E|[E|[]]] & X & Nc) & ->); injection E as <- <-; rewrite A1; cbn; auto.
    - intros [E|[E|[]]]; injection E as <- <-; exists 1%Qc; rewrite A1; (split; [|auto]); (split; [cbn; auto|]);
        (split; [discriminate|]); intros [E|[]]; discriminate. }
  assert (P2 : k2 = [(4%N, (- Q2Qc 2)%Qc)]).
  { apply Permutation_length_1_inv. apply NoDup_Permutation; [nodupx|apply (NoDup_map_inv _ _ N2)|]. intros [s v]. rewrite I2. unfold cand. split.
    - intros [E|[]]; injection E as <- <-; exists (Q2Qc 2); rewrite A2; (split; [|auto]); (split; [cbn; auto|]);
        (split; [discriminate|]); intros [E|[]]; discriminate.
    - intros (x & ([E|[]] & X & Nc) & ->); injection E as <- <-; rewrite A2; cbn; auto. }
  subst k2. clear I1 I2 N1 N2.
  change (size_sub 3 (length [8%N])) with 2%N. change (to_int (Z.of_N 2)) with 2%Z. cbn [Z.ltb Z.compare]. change (Z.to_nat 2) with 2.
  cbn [map snd].
  assert (B1 : Qcabs (-(1)) = 1%Qc) by (vm_compute; apply Qc_is_canon; reflexivity).
  assert (B2 : Qcabs (- Q2Qc 2) = Q2Qc 2) by (vm_compute; apply Qc_is_canon; reflexivity).
  assert (M1 : map (fun p : contrib => Qcabs (snd p)) k1 = [1%Qc; 1%Qc]).
  { assert (X : forall y, In y (map (fun p : contrib => Qcabs (snd p)) k1) -> y = 1%Qc).
    { intros y Hy. apply (Permutation_in _ (Permutation_map _ P1)) in Hy. cbn [map snd] in Hy. rewrite B1 in Hy. destruct Hy as [<-|[<-|[]]]; auto. }
    pose proof (Permutation_length P1) as L. destruct k1 as [|a [|b [|c k1]]]; try discriminate. cbn [map] in *.
    rewrite (X (Qcabs (snd a))), (X (Qcabs (snd b))); cbn; auto. }
  rewrite M1, B2.
  eapply always_bind.
  { apply (dist_quickselect_ok 0%Qc qgreater qequal qgreater_weak qequal_spec); try (cbn; lia); discriminate. }
  cbn beta. intros kths [LK FK]. destruct kths as [|v1 [|v2 [|v3 kths]]]; try discriminate.
  inversion FK as [|? ? V1 FK']; subst. inversion FK' as [|? ? V2 FK'']; subst.
  apply tie_scores in V1, V2. subst v1 v2. cbn [combine].
  eapply always_bind.
  { apply mapND_always with (R := fun lk t => lk = (k1, 1%Qc) /\ Permutation k1 (fst (fst t) ++ snd (fst t)) \/
       lk = ([(4%N, (- Q2Qc 2)%Qc)], 1%Qc) /\ fst (fst t) ++ snd (fst t) = [(4%N, (- Q2Qc 2)%Qc)]).
    intros lk Hlk. eapply always_weaken; [|apply leg_partition_always]. cbn beta. intros [[a b] c] (P & F1 & F2 & F3). cbn [fst snd] in *.
    assert (c = []).
    { destruct c as [|x c]; auto. exfalso. inversion F3 as [|? ? [X1 X2] _]; subst.
      assert (I : In x (fst lk)) by (apply Permutation_sym in P; apply (Permutation_in _ P); rewrite !in_app_iff; right; right; left; auto).
      assert (Y : Qcabs (snd x) = 1%Qc /\ snd lk = 1%Qc \/ Qcabs (snd x) = Q2Qc 2 /\ snd lk = 1%Qc).
      { destruct Hlk as [<-|[<-|[]]]; cbn [fst snd] in *.
        - left. split; auto. apply (in_map (fun p : contrib => Qcabs (snd p))) in I. rewrite M1 in I. destruct I as [<-|[<-|[]]]; auto.
        - right. destruct I as [<-|[]]. auto. }
      destruct Y as [[Y Z]|[Y Z]]; rewrite Y, Z in X1, X2; vm_compute in X1, X2; discriminate. }
    subst c. rewrite app_nil_r in P. destruct Hlk as [<-|[<-|[]]]; cbn [fst] in P; [left|right]; split; auto.
    apply Permutation_length_1_inv in P. exact P. }
  cbn beta. intros parts F. inversion F as [|? t1 ? ? H1 F']; subst. inversion F' as [|? t2 ? ? H2 F'']; subst. inversion F''; subst. clear F F' F''.
  assert (H1' : Permutation k1 (fst (fst t1) ++ snd (fst t1))).
  { destruct H1 as [[_ H1]|[E _]]; auto. injection E as ->. exfalso. apply Permutation_length in P1. discriminate. }
  assert (H2' : fst (fst t2) ++ snd (fst t2) = [(4%N, (- Q2Qc 2)%Qc)]).
  { destruct H2 as [[E _]|[_ H2]]; auto. injection E as <-. exfalso. apply Permutation_length in P1. discriminate. }
  clear H1 H2. cbn [map]. rewrite H2'. cbn [map fst].
  assert (P3 : Permutation [1; 2]%N (map fst (fst (fst t1) ++ snd (fst t1)))).
  { rewrite <- H1'. rewrite P1. cbn [map fst]. reflexivity. }
  set (q := map fst (fst (fst t1) ++ snd (fst t1))) in *. clearbody q.
  destruct q as [|a [|b [|c q]]]; try (apply Permutation_length in P3; discriminate).
  apply always_bind with (P := fun x => x = (3%Z, [2%Z;1%Z], [0%Z;2%Z])); [apply always_det with (a := (3%Z, [2%Z;1%Z], [0%Z;2%Z])); [vm_compute; reflexivity|reflexivity]|]. intros ? ->.
  cbn beta iota.
  apply always_bind with (P := fun x => x = [a; b; 4%N]); [apply always_det with (a := [a; b; 4%N]); [vm_compute; reflexivity|reflexivity]|]. intros ? ->.
  apply always_ret. change (2 <? Z.to_N 3)%N with true. cbn iota. change (N.to_nat 2) with 2. cbn [firstn app].
  apply (Permutation_app_tail [8%N]) in P3. exact P3.
Qed.
Lemma tie_facts : NoDup (map fst (concat tie_pairs)) /\ (forall s, In s (map fst (concat tie_pairs)) -> wf 64 s) /\
  (forall s, In s [8%N] -> wf 64 s) /\ In (4%N, Q2Qc 2) (concat tie_pairs) /\
  (Qcabs 1 < Qcabs (Q2Qc 2))%Qc.
Proof.
  split; [cbn [tie_pairs concat map fst app]; nodupx|]. split; [intros s Hs; apply tie_wf; cbn in Hs |- *; tauto|].
  split; [intros s [<-|[]]; apply tie_wf; cbn; auto|]. split; [cbn; auto|]. apply qlt_true. vm_compute. reflexivity.
Qed.

(** non-trivial instance of the hypotheses *)
Definition m_st : settings := c_st 0 false.
Lemma m_core : Forall (core_ok 64 ex_ints true m_st ex_E0) c_core.
Proof.
  apply Forall_forall. intros D HD. destruct (c_space2 D HD) as [G Hd]. split; auto. split; auto. intros t.
  apply (c_nores' 0 false D t HD).
Qed.
Definition m_all : list contrib := all_contribs 64 ex_ints m_st ex_E0 ex_C 0 c_core.
Lemma m_agree i t : i < length c_core -> linked 64 ex_ints false (nth i c_core 0%N) t ->
  (contributes 64 ex_ints (h_el_tol m_st) false (nth i c_core 0%N) t <->
   contributes_c 64 ex_ints (h_el_tol m_st) (nth i ex_C 0%Qc) (nth i c_core 0%N) t).
Proof. intros _. apply c52_tol0. apply Qcle_refl. Qed.
Lemma m_score t x : is_score_c 64 ex_ints (h_el_tol m_st) ex_E0 c_core ex_C t x <->
  is_score 64 ex_ints (h_el_tol m_st) (just_singles m_st) ex_E0 c_core ex_C t x.
Proof.
  unfold is_score_c, is_score. split; intros (l & A & B & E); exists l; split; auto; split; auto; intros i; rewrite B.
  - split; intros [L H]; split; auto; (apply m_agree; [auto|destruct H; auto|auto]).
  - split; intros [L H]; split; auto; (apply m_agree; [auto|destruct H; auto|auto]).
Qed.
Lemma m_cand t x : candidate 64 ex_ints (h_el_tol m_st) ex_E0 c_core ex_C t x <->
  x = score m_all t /\ x <> 0%Qc /\ ~ In t c_core.
Proof.
  pose proof (is_score_all 64 ex_ints ltac:(vm_compute; lia) true m_st ex_E0 ex_C c_core t m_core) as SA.
  unfold candidate. rewrite m_score. split.
  - intros (H & X & Nc). split; auto. apply (is_score_unique 64 ex_ints m_st ex_E0 ex_C c_core t); auto.
  - intros (-> & X & Nc). split; auto.
Qed.
Definition m_list : list (N * Qc) := map (fun t => (t, Qcabs (score m_all t))) (nodup N.eq_dec (map fst m_all)).
Lemma score_in (l : list contrib) u : score l u <> 0%Qc -> In u (nodup N.eq_dec (map fst l)).
Proof.
  intros Hu. apply nodup_In. destruct (in_dec N.eq_dec u (map fst l)) as [|Nu]; auto. exfalso. apply Hu.
  unfold score, vals. replace (filter (fun p : N * Qc => (fst p =? u)%N) l) with (@nil (N * Qc)); auto.
  symmetry. apply filter_empty. intros p Hp. apply N.eqb_neq. intros <-. apply Nu, in_map, Hp.
Qed.
Lemma qequal_ne x y : negb (qequal x y) = true -> x <> y.
Proof. unfold qequal. destruct (Qc_eq_dec x y); [discriminate|auto]. Qed.
Lemma m_no_ties s x t y : candidate 64 ex_ints (h_el_tol m_st) ex_E0 c_core ex_C s x ->
  candidate 64 ex_ints (h_el_tol m_st) ex_E0 c_core ex_C t y -> s <> t -> Qcabs x <> Qcabs y.
Proof.
  intros Hx Hy. apply m_cand in Hx, Hy. destruct Hx as (-> & X & _), Hy as (-> & Y & _).
  pose proof (score_in m_all) as IN.
  apply IN in X, Y. intros Ne.
  assert (CK : forallb (fun a => forallb (fun b => (fst a =? fst b)%N || negb (qequal (snd a) (snd b))) m_list) m_list = true)
    by (vm_compute; reflexivity).
  rewrite forallb_forall in CK. specialize (CK (s, Qcabs (score m_all s))). rewrite forallb_forall in CK.
  specialize (CK (in_map _ _ _ X) (t, Qcabs (score m_all t)) (in_map _ _ _ Y)). cbn [fst snd] in CK.
  apply N.eqb_neq in Ne. rewrite Ne in CK. cbn [orb] in CK.
  exact (qequal_ne _ _ CK).
Qed.
Lemma m_least : at_least (4 - length c_core) (fun t => exists x, candidate 64 ex_ints (h_el_tol m_st) ex_E0 c_core ex_C t x).
Proof.
  exists [c_t; c_d]. split; [nodupx|]. split; [reflexivity|]. intros t Ht. exists (score m_all t). apply m_cand. split; auto. split.
  - intros E. assert (X : qequal (score m_all t) 0 = false).
    { destruct Ht as [<-|[<-|[]]]; vm_compute; reflexivity. }
    apply (qequal_ne (score m_all t) 0); [rewrite X; reflexivity|exact E].
  - intros I. destruct Ht as [<-|[<-|[]]]; destruct I as [E|[E|[]]]; vm_compute in E; discriminate.
Qed.
Lemma c54_ex :
  (length c_core < 4 /\ just_singles m_st = false /\ pair_size_max m_st = 1000 /\
   (forall D, In D c_core -> 3 + 0 <= bs_count (alpha 64 D))) /\
  at_least (4 - length c_core) (fun t => exists x, candidate 64 ex_ints (h_el_tol m_st) ex_E0 c_core ex_C t x) /\
  (forall s x t y, candidate 64 ex_ints (h_el_tol m_st) ex_E0 c_core ex_C s x ->
     candidate 64 ex_ints (h_el_tol m_st) ex_E0 c_core ex_C t y -> s <> t -> Qcabs x <> Qcabs y).
Proof.
  split; [|split; [apply m_least|apply m_no_ties]]. split; [cbn; auto|]. split; auto. split; auto. apply c_el.
Qed.

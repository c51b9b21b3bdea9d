(** One iteration on several ranks, growth and refinement. *)
From Coq Require Import QArith Qcanon Sorting.Permutation Sorting.Sorted.
From Verif Require Import Base Nondet Bits SD Spec Sums FockSpec FockProofs SlaterCondon Ham BitsProofs SDProofs SDProofs2 SDProofs3 SDProofs4 SDProofs5 HamProofs HamProofs2 HamProofs3 HamProofs4 HamProofs5 HamProofs6 HamProofs7 HamProofs8 PropsHamGlue Dist DistProofs SparseSpec DenseSpec DiisSpec Davidson DavSpec DavProofs DavProofs2 DavProofs6 DavProofs9 DavProofs10 DavProofs11 DavProofs14 DavEx
  Asci AsciSpec AsciSort AsciSearch AsciSearch2 AsciSearch3 AsciIter Constraint ConstraintSpec
  ConstraintSearch3 Collective CollectiveSpec CollectiveProofs AsciMpi AsciMpiProofs AsciPar AsciParSpec AsciParProofs AsciParProofs2 AsciParProofs3.
Local Open Scope nat_scope.

Lemma map_fst_combine {A B} : forall (l : list A) (l' : list B), length l = length l' -> map fst (combine l l') = l.
Proof. induction l as [|a l IH]; intros [|b l'] H; cbn in *; try lia; [reflexivity|]. f_equal. apply IH. lia. Qed.
Lemma sorted_nth (l : list Qc) : StronglySorted (fun x y => (Qcabs y <= Qcabs x)%Qc) l -> forall a b, a < b -> b < length l ->
  (Qcabs (nth b l 0) <= Qcabs (nth a l 0))%Qc.
Proof.
  induction 1 as [|x l S IH F]; intros a b Hab Hb; [cbn in Hb; lia|]. destruct b as [|b]; [lia|]. cbn [length] in Hb. cbn [nth]. destruct a as [|a].
  - rewrite Forall_forall in F. apply F, nth_In. lia.
  - apply IH; lia.
Qed.
Lemma leading_firstn E wfn X w' X' k : length wfn = length X -> length w' = length X' -> Permutation (combine wfn X) (combine w' X') ->
  StronglySorted (fun x y => (Qcabs y <= Qcabs x)%Qc) X' -> NoDup wfn ->
  leading k (E, wfn, X) (firstn (Nat.min k (length w')) w').
Proof.
  intros L1 L2 P S Nd. assert (Pw : Permutation wfn w').
  { pose proof (Permutation_map fst P) as Q. rewrite !map_fst_combine in Q by lia. exact Q. }
  pose proof (Permutation_length Pw) as LW. pose proof (Permutation_NoDup Pw Nd) as Nd'.
  unfold leading, wfn_size, wfn_dets. cbn [fst snd]. split; [rewrite firstn_length; lia|].
  split; [apply (NoDup_app_l' _ (skipn (Nat.min k (length w')) w')); rewrite firstn_skipn; exact Nd'|].
  split; [intros t Ht; apply (Permutation_in t (Permutation_sym Pw)), (firstn_In _ _ _ Ht)|].
  assert (POS : forall i, i < length wfn -> exists a, a < length w' /\ nth a w' 0%N = nth i wfn 0%N /\ nth a X' 0%Qc = nth i X 0%Qc).
  { intros i Hi. assert (I : In (nth i wfn 0%N, nth i X 0%Qc) (combine w' X')).
    { apply (Permutation_in _ P). rewrite <- combine_nth by exact L1. apply nth_In. rewrite combine_length. lia. }
    apply (In_nth _ _ (0%N, 0%Qc)) in I. destruct I as (a & Ha & Ea). rewrite combine_length in Ha. rewrite combine_nth in Ea by exact L2. injection Ea as E1 E2.
    exists a. split; [lia|]. auto. }
  intros i j Hi Hj Ii Ij. destruct (POS i Hi) as (a & La & A1 & A2), (POS j Hj) as (b & Lb & B1 & B2). rewrite <- A2, <- B2.
  set (m := Nat.min k (length w')) in *.
  assert (Ba : b >= m).
  { destruct (Nat.lt_ge_cases b m) as [Hb|]; [|assumption]. exfalso. apply Ij. rewrite <- B1. rewrite <- (firstn_skipn m w') at 1. rewrite app_nth1 by (rewrite firstn_length; lia). apply nth_In. rewrite firstn_length. lia. }
  assert (Aa : a < m).
  { apply (In_nth _ _ 0%N) in Ii. destruct Ii as (c & Hc & Ec). rewrite firstn_length in Hc.
    assert (Ec' : nth c w' 0%N = nth a w' 0%N). { rewrite A1, <- Ec. rewrite <- (firstn_skipn m w') at 1. rewrite app_nth1 by (rewrite firstn_length; lia). reflexivity. }
    rewrite NoDup_nth in Nd'. rewrite <- (Nd' c a ltac:(lia) La Ec'). lia. }
  apply sorted_nth; [exact S|lia|lia].
Qed.

Lemma reorder_leading k E wfn X : length X = length wfn -> NoDup wfn ->
  if_returns (if 1 <? length wfn then reorder_ci_on_coeff wfn X else ret (wfn, X)) (fun wX =>
    length (snd wX) = length wfn /\ length (fst wX) = length wfn /\ Permutation wfn (fst wX) /\ leading k (E, wfn, X) (firstn (Nat.min k (length (fst wX))) (fst wX))).
Proof.
  intros L Nd. destruct (Nat.ltb_spec 1 (length wfn)).
  - eapply returns_weaken; [|apply always_returns, (reorder_ok wfn X); lia]. cbn beta. intros [w' X'] (A & P & S). cbn [fst snd] in *.
    assert (Pw : Permutation wfn w').
    { pose proof (Permutation_map fst P) as Q. rewrite !map_fst_combine in Q by lia. exact Q. }
    pose proof (Permutation_length Pw). split; [lia|]. split; [lia|]. split; [exact Pw|]. apply (leading_firstn E wfn X w' X' k); auto.
  - apply returns_ret. cbn [fst snd]. split; [exact L|]. split; [reflexivity|]. split; [reflexivity|]. apply (leading_firstn E wfn X wfn X k); auto.
    destruct X as [|x [|y X]]; [constructor|repeat constructor|cbn in L; lia].
Qed.

  Lemma combine_repeat {A B} (a : A) (b : B) k : combine (repeat a k) (repeat b k) = repeat (a, b) k.
  Proof. induction k; cbn; congruence. Qed.
  Lemma nth_nils k r j : nth j (nth r (repeat (@nil Qc) k) []) 0%Qc = 0%Qc.
  Proof. revert r. induction k as [|k IH]; intros [|r]; destruct j; cbn; auto; exact (IH r). Qed.
  Lemma common_repeat (s : wfn_state) k : 0 < k -> common (repeat s k) = Ok s.
  Proof.
    destruct k as [|k]; [lia|]. intros _. cbn [repeat common].
    assert (E : forallb (fun t => if wfn_eq_dec s t then true else false) (repeat s k) = true).
    { apply forallb_forall. intros t T. apply repeat_spec in T. subst t. destruct (wfn_eq_dec s s); [reflexivity|contradiction]. }
    rewrite E. reflexivity.
  Qed.

Section ITER.
  Variables (root : Qc -> Qc) (syev : nat -> list Qc -> res (list Qc * list Qc)).
  Variables (W : nat) (HW : spin_width W) (h : ints).
  Notation n := (norb h).
  Hypothesis Hn : n <= W / 2.
  Hypothesis Vs : forall p q r s, p < n -> q < n -> r < n -> s < n -> V_pqrs h p q r s = V_pqrs h r s p q.
  Variables (p : par) (dbg : bool) (st : settings) (na nb : nat).
  Hypothesis Hd : dbg = true -> na < n /\ nb < n.
  Hypothesis HP : 0 < p_ranks p.
  Hypothesis Ht : (0 <= p_thr p)%Qc.
  Notation P := (p_ranks p).

  Lemma valid_alpha D : valid1 W h na nb D -> dbg = true -> bs_count (alpha W D) < n /\ bs_count (beta W D) < n.
  Proof. exact (valid1_dbg W h dbg na nb Hd D). Qed.

  (* the determinants *)
  Lemma search_mpi_returns fuel g level m E0 C core : valid_dets W n na nb core -> length core <= length C -> length core <= m -> (N.of_nat m < 2 ^ 64)%N ->
    if_returns (asci_search_mpi fuel g dbg W st level h m core E0 C P) (fun out => valid_dets W n na nb out /\ extends W h core out /\ length out <= m).
  Proof.
    intros [Nc Vc] LC Lm L64. unfold asci_search_mpi.
    eapply returns_bind; [apply (search_returns W HW h Hn Vs dbg st E0 C core LC)|].
    { intros D HD. apply (Vc D HD). }
    { intros Hb D HD. apply valid_alpha; [exact (Vc D HD)|exact Hb]. }
    { exact HP. }
    intros pairs (LP & FR & DJ).
    assert (VP : forall t, In t (map fst (concat pairs)) -> valid1 W h na nb t).
    { intros t T. destruct (FR t T) as (j & Lj & [[Gt M] _]). pose proof (Vc _ (nth_In _ 0%N Lj)) as (G & A & B). split; [exact Gt|].
      destruct M as [M|[_ M]]; eapply spin_moves_counts; eauto. }
    eapply returns_weaken; [|apply (select_returns_mpi fuel g W m core C pairs)].
    - cbn beta. intros out (sel & -> & Ns & Ls & Is). split; [split|split].
      + apply NoDup_app; [exact Ns|exact Nc|]. intros t T1 T2. destruct (Is t T1) as [_ X]. exact (X T2).
      + intros D HD. apply in_app_iff in HD. destruct HD as [HD|HD]; [apply (VP D), (Is D HD)|apply Vc, HD].
      + exists sel. split; [reflexivity|]. intros t T. destruct (FR t (proj1 (Is t T))) as (j & Lj & [LK _]). exists (nth j core 0%N). split; [apply nth_In, Lj|exact LK].
      + rewrite app_length. lia.
    - intros s T. apply (valid1_wf W HW h Hn na nb), VP, T.
    - intros s T. apply (valid1_wf W HW h Hn na nb), Vc, T.
    - exact DJ.
    - exact Lm.
    - exact L64.
  Qed.

  (* the solver and the gathering of its result *)
  Lemma diag_gather new Es Ys X0 : valid_dets W n na nb new -> (Z.of_nat (length new * P) < 2 ^ 31)%Z ->
    p_selected_ci_diag root syev dbg W h new (p_thr p) P (p_sub p) (p_tol p) (repeat [] P) (Ok (Es, Ys)) ->
    gather_coefficients P (length new) Ys (repeat X0 P) = Ok (repeat (concat Ys) P).
  Proof.
    intros [_ Gd] HZ H. destruct (ham_parts W h (p_thr p) new na nb P HW Hn Vs Gd Ht HP HZ) as (tiles & As & ET & LT & EAs & PA & IS & ND).
    unfold p_selected_ci_diag in H. apply DavProofs2.det_inv in H. destruct H as (t & Et & H). rewrite ET in Et. injection Et as <-.
    apply DavProofs2.det_inv in H. destruct H as (As' & EAs' & H). rewrite EAs in EAs'. injection EAs' as <-.
    rewrite <- LT in HP; destruct (parallel_inv root syev dbg _ _ _ _ (p_sub p) (p_tol p) (repeat [] P) Es Ys PA IS HP ltac:(rewrite repeat_length; lia) H) as (it & E & D & C' & E1 & SY & _).
    rewrite LT in HP. apply (gather_ok P (length new) tiles Ys X0 HP ET (proj1 PA) SY).
  Qed.

  (* what every rank returns, by parts *)
  Lemma iter_parts g m s : valid_dets W n na nb (wfn_dets s) -> length (snd s) = wfn_size s ->
    Nat.min (ncdets_max st) (wfn_size s) <= m -> (Z.of_nat (m * P) < 2 ^ 31)%Z ->
    if_returns (asci_iter_mpi root syev p g dbg W st h m s) (fun ss => exists E new Ys core, ss = repeat (E, new, concat Ys) P /\
      leading (ncdets_max st) s core /\ valid_dets W n na nb new /\ extends W h core new /\ length new <= m /\
      p_selected_ci_diag root syev dbg W h new (p_thr p) P (p_sub p) (p_tol p) (repeat [] P) (Ok (repeat E P, Ys))).
  Proof.
    destruct s as [[E0 wfn] X]. unfold wfn_size, wfn_dets. cbn [fst snd]. intros [Nw Vw] LX Lm HZ. unfold asci_iter_mpi.
    assert (L64 : (N.of_nat m < 2 ^ 64)%N) by nia.
    eapply returns_bind; [apply (reorder_leading (ncdets_max st) E0 wfn X LX Nw)|]. cbn beta. intros [w' X'] (A1 & A2 & Pw & LD). cbn [fst snd] in *.
    set (core := firstn (Nat.min (ncdets_max st) (length w')) w') in *.
    assert (Vc : valid_dets W n na nb core).
    { split; [apply LD|]. intros D HD. apply Vw. apply (Permutation_in D (Permutation_sym Pw)), (firstn_In _ _ _ HD). }
    assert (Lc : length core = Nat.min (ncdets_max st) (length wfn)) by (unfold core; rewrite firstn_length; lia).
    eapply returns_bind; [apply (search_mpi_returns (p_select p) g (p_level p) m E0 X' core Vc); [lia|lia|exact L64]|].
    cbn beta. intros new (Vn & Xn & Ln). intros ss H. apply nd_inv in H. destruct H as ([Es Ys] & HD & H). cbn [fst snd] in H.
    assert (HZ' : (Z.of_nat (length new * P) < 2 ^ 31)%Z) by nia.
    destruct (p_ci_residual root syev dbg W h (p_thr p) new na nb P (p_sub p) (p_tol p) (repeat [] P) Es Ys HW Hn Vs (proj2 Vn) Ht HP HZ' (repeat_length _ _) HD) as (E & -> & _ & _).
    rewrite (diag_gather new (repeat E P) Ys X' Vn HZ' HD) in H. apply nd_inv in H. destruct H as (Xs & H1 & H2). injection H1 as ->. red in H2. injection H2 as ->.
    exists E, new, Ys, core. split; [|auto 8]. rewrite combine_repeat. clear. induction P; cbn [repeat map]; [reflexivity|]. f_equal. exact IHn.
  Qed.
  Lemma iter_mpi_ok g m s : valid_dets W n na nb (wfn_dets s) -> length (snd s) = wfn_size s ->
    Nat.min (ncdets_max st) (wfn_size s) <= m -> (Z.of_nat (m * P) < 2 ^ 31)%Z ->
    if_returns (asci_iter_mpi root syev p g dbg W st h m s) (fun ss => exists s', ss = repeat s' P /\
      valid_dets W n na nb (wfn_dets s') /\ passed root W h (ncdets_max st) (p_thr p) (p_tol p) m s s').
  Proof.
    intros Vw LX Lm HZ. eapply returns_weaken; [|exact (iter_parts g m s Vw LX Lm HZ)]. cbn beta.
    intros ss (E & new & Ys & core & -> & LD & Vn & Xn & Ln & HD). exists (E, new, concat Ys). split; [reflexivity|].
    destruct (p_ci_residual root syev dbg W h (p_thr p) new na nb P (p_sub p) (p_tol p) (repeat [] P) (repeat E P) Ys HW Hn Vs (proj2 Vn) Ht HP ltac:(nia) (repeat_length _ _) HD) as (E' & EE & LY & R).
    assert (E = E') as <- by (destruct P as [|k]; [lia|]; cbn [repeat] in EE; congruence).
    unfold passed, wfn_dets, wfn_size, wfn_energy. cbn [fst snd]. split; [exact Vn|]. split; [exists core; auto|]. auto.
  Qed.
  Lemma iter_mpi_variational g m s : (forall p q, p < n -> q < n -> T_pq h p q = T_pq h q p) ->
    (forall p q r s, p < n -> q < n -> r < n -> s < n -> V_pqrs h p q r s = V_pqrs h q p s r) -> exact_root root -> eigensolver syev ->
    valid_dets W n na nb (wfn_dets s) -> length (snd s) = wfn_size s ->
    Nat.min (ncdets_max st) (wfn_size s) <= m -> (Z.of_nat (m * P) < 2 ^ 31)%Z ->
    if_returns (asci_iter_mpi root syev p g dbg W st h m s) (fun ss => Forall (variational W h (p_thr p)) ss).
  Proof.
    intros HT HV HR HE Vw LX Lm HZ. eapply returns_weaken; [|exact (iter_parts g m s Vw LX Lm HZ)]. cbn beta.
    intros ss (E & new & Ys & core & -> & LD & Vn & Xn & Ln & HD).
    destruct (p_ci_variational root syev dbg W h (p_thr p) new na nb P (p_sub p) (p_tol p) (repeat [] P) (repeat E P) Ys HW Hn HT ltac:(intros; split; [apply Vs|apply HV]; assumption) (proj2 Vn) Ht HP ltac:(nia) (repeat_length _ _) (fun r j => nth_nils P r j) HR HE HD) as (E' & EE & A1 & A2 & A3 & A4).
    assert (E = E') as <- by (destruct P as [|k]; [lia|]; cbn [repeat] in EE; congruence).
    apply Forall_forall. intros s' Hs'. apply repeat_spec in Hs'. subst s'. unfold variational, wfn_dets, wfn_size, wfn_energy. cbn [fst snd]. cbv zeta. auto.
  Qed.

  (* ** refinement *)
  Lemma refine_mpi_ok k g m : (Z.of_nat (m * P) < 2 ^ 31)%Z -> forall s, wfn_size s = m -> valid_dets W n na nb (wfn_dets s) -> length (snd s) = wfn_size s ->
    if_returns (refine_loop_mpi root syev k p g dbg W st h m s) (fun s' => wfn_size s' = m /\ valid_dets W n na nb (wfn_dets s') /\
      exists l, 1 <= length l <= k /\
        path (fun a b => passed root W h (ncdets_max st) (p_thr p) (p_tol p) m a b /\ wfn_size b = m) (s :: l) /\
        last (s :: l) s = s' /\
        (Qcabs (wfn_energy s' - wfn_energy (last (removelast (s :: l)) s)) < refine_energy_tol st)%Qc).
  Proof.
    intros HZ. induction k as [|k IH]; intros s Hs Vw LX; cbn [refine_loop_mpi]; [apply returns_det; discriminate|].
    eapply returns_bind; [apply (iter_mpi_ok (g k) m s Vw LX); [lia|exact HZ]|]. cbn beta. intros ss (s1 & -> & V1 & P1).
    eapply returns_bind with (P := fun x => x = s1); [apply returns_det; intros x E; rewrite common_repeat in E by exact HP; congruence|]. intros x ->.
    change (length (snd (fst s1))) with (wfn_size s1). destruct (Nat.eqb_spec (wfn_size s1) m) as [E1|E1]; cbn [negb]; [|apply returns_det; discriminate].
    pose proof P1 as (_ & _ & LX1 & _). destruct (abs_lt _ _) eqn:A.
    - apply returns_ret. split; [exact E1|]. split; [exact V1|]. exists [s1]. cbn [length path last removelast]. split; [lia|]. split; auto.
      split; auto. apply qlt_true, A.
    - eapply returns_weaken; [|exact (IH s1 E1 V1 LX1)]. cbn beta. intros s' (Hf & Vf & l & L & Hp & Hl & He). split; [exact Hf|]. split; [exact Vf|]. exists (s1 :: l).
      cbn [length]. split; [lia|]. split; [split; auto|].
      destruct l as [|s2 l]; [cbn in L; lia|].
      assert (LA : forall (x y : wfn_state) m d d', last (x :: y :: m) d = last (y :: m) d').
      { clear. intros x y m d d'. cbn [last]. destruct m; auto. revert w. induction m; intros w; auto. cbn [last]. apply IHm. }
      split; [rewrite (LA s s1 (s2 :: l) s s1); exact Hl|].
      change (removelast (s :: s1 :: s2 :: l)) with (s :: removelast (s1 :: s2 :: l)).
      change (removelast (s1 :: s2 :: l)) with (s1 :: removelast (s2 :: l)) in *.
      rewrite (LA s s1 _ s s1). exact He.
  Qed.
  (* ** growth *)
  Notation tgt a := (Nat.min (Nat.max (ntdets_min st) (wfn_size a * grow_factor st)) (ntdets_max st)).
  Hypothesis HM : (Z.of_nat (ntdets_max st * P) < 2 ^ 31)%Z.
  Lemma grow_mpi_ok fuel g : 1 <= grow_factor st -> forall s, wfn_size s <= ntdets_max st -> valid_dets W n na nb (wfn_dets s) -> length (snd s) = wfn_size s ->
    if_returns (asci_grow_mpi root syev fuel p g dbg W st h s) (fun s' => wfn_size s' = ntdets_max st /\ valid_dets W n na nb (wfn_dets s') /\
      exists l, last (s :: l) s = s' /\
        path (fun a b => passed root W h (ncdets_max st) (p_thr p) (p_tol p) (tgt a) a b /\ wfn_size b = tgt a /\ wfn_size a < ntdets_max st) (s :: l)).
  Proof.
    intros Hg. induction fuel as [|f IH]; intros [[E0 wfn] X] Hs Vw LX; cbn [asci_grow_mpi].
    - unfold wfn_size in *. cbn [fst snd] in *. destruct (Nat.ltb_spec (length wfn) (ntdets_max st)).
      + apply returns_det. discriminate.
      + apply returns_ret. cbn [fst snd]. split; [lia|]. split; [exact Vw|]. exists []. cbn. auto.
    - destruct (Nat.ltb_spec (length wfn) (ntdets_max st)) as [Hl|Hl].
      2:{ unfold wfn_size in *. cbn [fst snd] in *. apply returns_ret. cbn [fst snd]. split; [lia|]. split; [exact Vw|]. exists []. cbn. auto. }
      set (s := (E0, wfn, X)) in *. change (length wfn) with (wfn_size s) in *.
      assert (LL : Nat.min (ncdets_max st) (wfn_size s) <= tgt s). { assert (wfn_size s <= wfn_size s * grow_factor st) by nia. lia. }
      eapply returns_bind; [apply (iter_mpi_ok (g f) (tgt s) s Vw LX LL); nia|]. cbn beta. intros ss (s1 & -> & V1 & P1).
      eapply returns_bind with (P := fun x => x = s1); [apply returns_det; intros x E; rewrite common_repeat in E by exact HP; congruence|]. intros x ->.
      fold (wfn_dets s1). fold (wfn_size s1). pose proof P1 as (_ & Hlen & LX1 & _). destruct (Nat.ltb_spec (length (wfn_dets s1)) (tgt s)) as [|Hge]; [apply returns_det; discriminate|].
      change (length (wfn_dets s1)) with (wfn_size s1) in Hge.
      eapply returns_weaken; [|apply (IH s1 ltac:(lia) V1 LX1)]. cbn beta. intros s' (Hf & Vf & l & Hlast & Hp). split; [exact Hf|]. split; [exact Vf|].
      exists (s1 :: l). split; [|split; [split; [exact P1|split; [lia|lia]]|exact Hp]].
      rewrite <- Hlast. cbn [last]. destruct l; auto. clear. revert w. induction l; intros w; auto. cbn [last]. apply IHl.
  Qed.
End ITER.

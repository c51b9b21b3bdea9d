(** The statements of C41-C43 from the lemmas. *)
From Coq Require Import QArith Qcanon Sorting.Permutation Sorting.Sorted.
From Verif Require Import Base Spec Sums Nondet Ham HamProofs CsrProofs HamProofs5 SparseSpec CsrView Dist DistProofs Asci Constraint Collective CollectiveProofs Mem MemProofs Spmv SpmvSpec SpmvProofs PSpmvProofs PSpmvProofs2 PSpmvProofs3 CooProofs PropsHamGlue.
Local Open Scope nat_scope.

Lemma load_some V p : p < length V -> load (map Some V) p = Ok (nth p V 0%Qc).
Proof.
  intros H. unfold load. rewrite (nth_error_nth' _ (Some 0%Qc)) by (rewrite map_length; lia). rewrite map_nth. reflexivity.
Qed.

Lemma c41 K alpha A V LDV beta AV LDAV : csr_wf A ->
  (forall k, k < K -> k * LDV + csr_n A <= length V) ->
  (csr_m A <= LDAV \/ K <= 1) -> (forall k, k < K -> k * LDAV + csr_m A <= length AV) ->
  always (gespmbv K alpha A (map Some V) LDV beta AV LDAV) (fun AV' => length AV' = length AV /\
    (forall k i, k < K -> i < csr_m A -> nth (i + k * LDAV) AV' 0%Qc =
       (alpha * sum (seq 0 (csr_n A)) (fun j => csr_entry A i j * nth (k * LDV + j) V 0%Qc) + beta * nth (i + k * LDAV) AV 0%Qc)%Qc) /\
    (forall p, (forall k i, k < K -> i < csr_m A -> p <> i + k * LDAV) -> nth p AV' 0%Qc = nth p AV 0%Qc)).
Proof.
  intros W HV HD HB. apply (gespmbv_ok K alpha A (map Some V) LDV beta AV LDAV (fun k j => nth (k * LDV + j) V 0%Qc)); auto.
  intros k i cv Hk Hi Hcv. apply load_some. apply (csr_line_In A i cv W Hi) in Hcv. specialize (HV k Hk). lia.
Qed.
Lemma c41_coo K alpha A V LDV beta AV LDAV : coo_wf A -> coo_ind A = 0 ->
  (forall k, k < K -> k * LDV + coo_n A <= length V) ->
  (coo_m A <= LDAV \/ K <= 1) -> (forall k, k < K -> k * LDAV + coo_m A <= length AV) ->
  always (gespmbv_coo K alpha A (map Some V) LDV beta AV LDAV) (fun AV' => length AV' = length AV /\
    (forall k i, k < K -> i < coo_m A -> nth (i + k * LDAV) AV' 0%Qc =
       (alpha * sum (seq 0 (coo_n A)) (fun j => coo_entry A i j * nth (k * LDV + j) V 0%Qc) + beta * nth (i + k * LDAV) AV 0%Qc)%Qc) /\
    (forall p, (forall k i, k < K -> i < coo_m A -> p <> i + k * LDAV) -> nth p AV' 0%Qc = nth p AV 0%Qc)).
Proof.
  intros W I0 HV HD HB. apply (gespmbv_coo_ok K alpha A (map Some V) LDV beta AV LDAV (fun k j => nth (k * LDV + j) V 0%Qc)); auto.
  intros k j Hk Hj. specialize (HV k Hk). replace (j + k * LDV) with (k * LDV + j) by lia. apply load_some. lia.
Qed.

Lemma c41_coo_ref : exists A V AV, coo_wf A /\ coo_m A = 2 /\ coo_n A = 2 /\ length V = 2 /\ length AV = 2 /\
  exists AV', gespmbv_coo 1 1%Qc A (map Some V) 2 0%Qc AV 2 (Ok AV') /\
    nth 0 AV' 0%Qc <> sum (seq 0 2) (fun j => coo_entry A 0 j * nth j V 0)%Qc.
Proof.
  exists (mk_coo 2 2 1 [1] [1] [1%Qc]), [1%Qc; 1%Qc], [0%Qc; 0%Qc].
  split. { unfold coo_wf; cbn. split; auto. split; auto. split; intros x [<-|[]]; lia. }
  do 4 (split; [reflexivity|]).
  exists [0%Qc; 1%Qc]. split.
  - right. exists [0%Qc; 0%Qc]. split.
    + exists (list_prod (seq 0 1) (seq 0 2)). split; [apply Permutation_refl|]. vm_compute. reflexivity.
    + vm_compute. reflexivity.
  - vm_compute. discriminate.
Qed.

(** zip of the per-rank arguments *)
Lemma zip4 {A B C D} (f : nat -> A) (g : nat -> B) (h : nat -> C) (k : nat -> D) l :
  combine (combine (combine (map f l) (map g l)) (map h l)) (map k l) = map (fun r => (f r, g r, h r, k r)) l.
Proof. rewrite !combine_map2. reflexivity. Qed.

Lemma c42 dbg M tiles As Vs AVs v alpha beta : tiling 0 M tiles ->
  length As = length tiles -> length Vs = length tiles -> length AVs = length tiles ->
  (forall r A, nth_error As r = Some A -> dist_part M tiles r A) ->
  (forall r A, nth_error As r = Some A -> (Z.of_nat (received tiles A) < 2 ^ 31)%Z) ->
  (forall r t, nth_error tiles r = Some t -> (Z.of_nat (sent As t) < 2 ^ 31)%Z) ->
  (forall r lo hi, nth_error tiles r = Some (lo, hi) ->
     hi - lo <= length (nth r Vs []) /\ hi - lo <= length (nth r AVs []) /\
     forall p, p < hi - lo -> nth p (nth r Vs []) 0%Qc = v (lo + p)) ->
  exists infos, generate_spmv_comm_info dbg As = Ok infos /\ length infos = length tiles /\
    always (pgespmv alpha beta (combine (combine (combine As Vs) AVs) infos))
      (fun out => length out = length tiles /\
        forall r A lo hi, nth_error As r = Some A -> nth_error tiles r = Some (lo, hi) ->
          length (nth r out []) = length (nth r AVs []) /\
          (forall i, i < hi - lo -> nth i (nth r out []) 0%Qc =
            (alpha * sum (seq 0 M) (fun j => dist_entry A lo hi i j * v j) + beta * nth i (nth r AVs []) 0%Qc)%Qc) /\
          (forall i, hi - lo <= i -> nth i (nth r out []) 0%Qc = nth i (nth r AVs []) 0%Qc)).
Proof.
  intros T LA LV LAV D HR HS HV.
  set (dflt := mk_dist 0 [] (mk_csr 0 0 0 [] [] []) None).
  exists (map (plan tiles As dflt) (seq 0 (length tiles))).
  split; [apply (generate_ok M tiles As dflt T LA D HR HS)|]. split; [rewrite map_length, seq_length; auto|].
  replace (combine (combine (combine As Vs) AVs) (map (plan tiles As dflt) (seq 0 (length tiles)))) with
    (map (fun r => (nth r As dflt, nth r Vs [], nth r AVs [], plan tiles As dflt r)) (seq 0 (length tiles))).
  2:{ rewrite <- zip4.
      assert (EA : As = map (fun r => nth r As dflt) (seq 0 (length tiles))) by (rewrite <- LA; apply list_as_map).
      assert (EV : Vs = map (fun r => nth r Vs []) (seq 0 (length tiles))) by (rewrite <- LV; apply list_as_map).
      assert (EAV : AVs = map (fun r => nth r AVs []) (seq 0 (length tiles))) by (rewrite <- LAV; apply list_as_map).
      rewrite <- EA, <- EV, <- EAV. reflexivity. }
  assert (HV1 : forall r lo hi, nth_error tiles r = Some (lo, hi) ->
    hi - lo <= length (nth r Vs []) /\ forall p, p < hi - lo -> nth p (nth r Vs []) 0%Qc = v (lo + p)).
  { intros r lo hi E. destruct (HV r lo hi E) as (H1 & H2 & H3). auto. }
  assert (HV2 : forall r lo hi, nth_error tiles r = Some (lo, hi) -> hi - lo <= length (nth r AVs [])).
  { intros r lo hi E. destruct (HV r lo hi E) as (H1 & H2 & H3). auto. }
  eapply always_weaken; [|eapply (pgespmv_ok M tiles As dflt T LA D Vs AVs v alpha beta); eauto].
  - cbn beta. intros out (L & F). split; auto. intros r A lo hi EA Et.
    assert (Hr : r < length tiles) by (apply nth_error_Some; congruence).
    specialize (F r Hr lo hi Et). rewrite (nth_error_nth As r dflt EA) in F. exact F.
Qed.

(** every stored column index belongs to some line *)
Lemma colind_in_line A c : csr_wf A -> In c (colind A) ->
  exists i cv, i < csr_m A /\ In cv (csr_line A i) /\ csr_ind A + fst cv = c.
Proof.
  intros W Hc. apply (In_nth _ _ 0) in Hc. destruct Hc as (q & Hq & <-).
  assert (G : forall m, m <= csr_m A -> q < nth m (rowptr A) 0 - csr_ind A ->
     exists i, i < m /\ nth i (rowptr A) 0 - csr_ind A <= q < nth (S i) (rowptr A) 0 - csr_ind A).
  { induction m as [|m IH]; intros Hm H.
    - destruct W as (_ & E & _). lia.
    - destruct (Nat.lt_ge_cases q (nth m (rowptr A) 0 - csr_ind A)) as [L|L].
      + destruct (IH ltac:(lia) L) as (i & Hi & HH). exists i. split; [lia|auto].
      + exists m. split; [lia|]. auto. }
  destruct (G (csr_m A)) as (i & Hi & HH); [lia| |].
  { destruct W as (_ & _ & _ & E & _). rewrite E. lia. }
  pose proof (ptr_range _ _ _ _ _ _ W i ltac:(lia)). pose proof (ptr_range _ _ _ _ _ _ W (S i) ltac:(lia)).
  pose proof W as (_ & _ & _ & _ & LV & HC).
  pose proof (HC (nth q (colind A) 0) ltac:(apply nth_In; auto)).
  exists i, (nth q (colind A) 0 - csr_ind A, nth q (nzval A) 0%Qc). split; auto. split; [|cbn [fst]; lia].
  unfold csr_line. rewrite line_seq by lia. apply in_map_iff. exists (q - (nth i (rowptr A) 0 - csr_ind A)).
  split; [|apply in_seq; lia].
  replace (nth i (rowptr A) 0 - csr_ind A + (q - (nth i (rowptr A) 0 - csr_ind A))) with q by lia. reflexivity.
Qed.

Lemma block_ind W h thr bras kets A : make_csr_block W h thr bras kets = Ok A -> csr_ind A = 0.
Proof.
  unfold make_csr_block, make_csr_block_. destruct (_ || _).
  - intros E. injection E as <-. reflexivity.
  - destruct (csr_rows _ _ _ _ _) as [rows|e]; cbn [bind]; [|discriminate]. intros E. injection E as <-. reflexivity.
Qed.
Lemma dist_ind W h thr sds P st en D B : make_dist_csr W h thr sds P st en = Ok (D, Some B) -> csr_ind B = 0.
Proof.
  unfold make_dist_csr. destruct (make_csr_block W h thr _ _) as [d|e]; cbn [bind]; [|discriminate].
  destruct (1 <? P); [|discriminate]. destruct (make_csr_block _ _ _ _ (_ ++ _)) as [o|e] eqn:E; cbn [bind]; [|discriminate].
  intros E'. assert (o = B) by congruence. subst. eapply block_ind; eauto.
Qed.

Lemma entry_filter p l j : entry (filter p l) j = sum l (fun cv => if p cv then if fst cv =? j then snd cv else 0%Qc else 0%Qc).
Proof. unfold entry. apply sum_filter. Qed.
Lemma filter_length_le' {A} (p : A -> bool) l : length (filter p l) <= length l.
Proof. induction l as [|x l IH]; cbn; auto. destruct (p x); cbn; lia. Qed.
Lemma demand_le A t : length (demand A t) <= snd t - fst t.
Proof.
  unfold demand. destruct (d_off A); [|cbn; lia].
  etransitivity; [apply filter_length_le'|]. rewrite seq_length. auto.
Qed.
Lemma tiles_total a b l : tiling a b l -> list_sum (map (fun t => snd t - fst t) l) = b - a.
Proof.
  induction 1 as [|a m b l L T IH]; [cbn; lia|]. pose proof (tiling_le _ _ _ T). cbn [map list_sum fold_right fst snd].
  unfold list_sum in IH. rewrite IH. lia.
Qed.
Lemma list_sum_le {A} (f g : A -> nat) l : (forall x, f x <= g x) -> list_sum (map f l) <= list_sum (map g l).
Proof. intros H. induction l as [|x l IH]; cbn; auto. specialize (H x). unfold list_sum in IH. lia. Qed.

Lemma c42_ham dbg W h thr sds na nb P v alpha' beta' : spin_width W -> norb h <= W / 2 ->
  (forall p q r s, p < norb h -> q < norb h -> r < norb h -> s < norb h -> V_pqrs h p q r s = V_pqrs h r s p q) ->
  (forall b, In b sds -> in_space W (norb h) b /\ size_is (alpha W b) na /\ size_is (beta W b) nb) ->
  0 < P -> (Z.of_nat (length sds * P) < 2 ^ 31)%Z ->
  exists A tiles As infos,
    make_csr_hamiltonian W h thr sds = Ok A /\ default_tiles (length sds) P = Ok tiles /\ length As = P /\
    (forall r, r < P -> exists D Of, make_dist_csr_hamiltonian W h thr sds P r = Ok (D, Of) /\
        nth_error As r = Some (mk_dist (length sds) tiles D Of)) /\
    generate_spmv_comm_info dbg As = Ok infos /\
    forall Vs AVs, length Vs = P -> length AVs = P ->
    (forall r lo hi, nth_error tiles r = Some (lo, hi) ->
       hi - lo <= length (nth r Vs []) /\ hi - lo <= length (nth r AVs []) /\
       forall p, p < hi - lo -> nth p (nth r Vs []) 0%Qc = v (lo + p)) ->
    always (pgespmv alpha' beta' (combine (combine (combine As Vs) AVs) infos))
      (fun out => forall r lo hi, nth_error tiles r = Some (lo, hi) ->
          forall i, i < hi - lo -> nth i (nth r out []) 0%Qc =
            (alpha' * sum (seq 0 (length sds)) (fun j => csr_entry A (lo + i)%nat j * v j) + beta' * nth i (nth r AVs []) 0%Qc)%Qc).
Proof.
  intros HW Hn Vsym G HP HZ.
  pose proof (dist_csr_ok W h thr sds na nb P) as DC.
  destruct (default_tiles_ok (length sds) P HP) as (tiles & Et & Lt & Tt).
  destruct (DC 0 HW Hn Vsym G HP HP) as (t0 & st0 & en0 & A & D0 & O0 & _ & _ & _ & EA & _).
  set (dflt := mk_dist 0 [] (mk_csr 0 0 0 [] [] []) None).
  set (As := map (fun r => match make_dist_csr_hamiltonian W h thr sds P r with
      | Ok (D, Of) => mk_dist (length sds) tiles D Of | Err _ => dflt end) (seq 0 P)).
  assert (LA : length As = P) by (unfold As; rewrite map_length, seq_length; auto).
  assert (HA : forall r, r < P -> exists D Of lo hi, make_dist_csr_hamiltonian W h thr sds P r = Ok (D, Of) /\
      nth_error As r = Some (mk_dist (length sds) tiles D Of) /\ nth_error tiles r = Some (lo, hi) /\
      dist_part (length sds) tiles r (mk_dist (length sds) tiles D Of) /\
      forall i j, i < hi - lo -> j < length sds -> dist_entry (mk_dist (length sds) tiles D Of) lo hi i j = csr_entry A (lo + i) j).
  { intros r Hr. destruct (DC r HW Hn Vsym G HP Hr) as (t & st & en & A' & D & Of & Et' & Er & Hse & EA' & ED & WD & mD & nD & RD & RO & R1).
    assert (t = tiles) by congruence. assert (A' = A) by congruence. subst t A'.
    exists D, Of, st, en. split; auto. split.
    { rewrite (nth_error_nth' As dflt) by lia. unfold As. rewrite nth_map_seq by auto. rewrite ED. reflexivity. }
    split; auto.
    assert (OUT : forall B, Of = Some B -> 1 < P).
    { intros B EB. destruct (Nat.lt_ge_cases 1 P) as [L|L]; auto. destruct (R1 L) as [X _]. congruence. }
    split.
    - split; [reflexivity|]. split; [reflexivity|]. exists st, en. do 4 (split; [auto|]). cbn [d_diag d_off].
      intros B EB. destruct (RO (OUT B EB)) as (B' & EB' & WB & mB & nB & RB). assert (B' = B) by congruence. subst B'.
      split; auto. split; auto. split; auto. split.
      + subst Of. unfold make_dist_csr_hamiltonian in ED. rewrite Et in ED. cbn [bind] in ED. rewrite Er in ED.
        eapply dist_ind; eauto.
      + intros c Hc. assert (iB : csr_ind B = 0).
        { subst Of. unfold make_dist_csr_hamiltonian in ED. rewrite Et in ED. cbn [bind] in ED. rewrite Er in ED.
          eapply dist_ind; eauto. }
        destruct (colind_in_line B c WB Hc) as (i & cv & Hi & Hcv & Ec). rewrite iB in Ec. cbn [plus] in Ec.
        rewrite RB in Hcv by lia. apply filter_In in Hcv. destruct Hcv as [_ Hcv]. unfold inside in Hcv. rewrite Ec in Hcv.
        destruct (Nat.leb_spec st c); destruct (Nat.ltb_spec c en); cbn in Hcv; try discriminate; lia.
    - intros i j Hi Hj. unfold dist_entry. cbn [d_diag d_off].
      destruct (Nat.leb_spec st j) as [L1|L1]; [destruct (Nat.ltb_spec j en) as [L2|L2]|]; cbn [andb].
      + unfold csr_entry, entry.
        rewrite (sum_ext _ _ (fun cv => (fun cv' : nat * Qc => if fst cv' =? j then snd cv' else 0%Qc) (fst cv + st, snd cv))).
        2:{ intros cv _. cbn [fst snd]. destruct (Nat.eqb_spec (fst cv) (j - st)); destruct (Nat.eqb_spec (fst cv + st) j); auto; lia. }
        rewrite <- (sum_map (fun cv : nat * Qc => (fst cv + st, snd cv)) (csr_line D i) (fun cv' : nat * Qc => if fst cv' =? j then snd cv' else 0%Qc)). rewrite RD by auto.
        rewrite sum_filter. apply sum_ext. intros cv _. unfold inside.
        destruct (Nat.eqb_spec (fst cv) j) as [->|]; [|destruct (_ && _); reflexivity].
        apply Nat.leb_le in L1. apply Nat.ltb_lt in L2. rewrite L1, L2. reflexivity.
      + destruct (Nat.lt_ge_cases 1 P) as [L|L].
        * destruct (RO L) as (B & -> & WB & mB & nB & RB). unfold csr_entry. rewrite RB by auto. rewrite entry_filter.
          unfold entry. apply sum_ext. intros cv _. unfold inside.
          destruct (Nat.eqb_spec (fst cv) j) as [->|]; [|destruct (negb _); reflexivity].
          destruct (Nat.ltb_spec j en); [lia|]. rewrite andb_false_r. reflexivity.
        * destruct (R1 L) as (_ & -> & ->). lia.
      + destruct (Nat.lt_ge_cases 1 P) as [L|L].
        * destruct (RO L) as (B & -> & WB & mB & nB & RB). unfold csr_entry. rewrite RB by auto. rewrite entry_filter.
          unfold entry. apply sum_ext. intros cv _. unfold inside.
          destruct (Nat.eqb_spec (fst cv) j) as [->|]; [|destruct (negb _); reflexivity].
          destruct (Nat.leb_spec st j); [lia|]. reflexivity.
        * destruct (R1 L) as (_ & -> & ->). lia. }
  assert (DP : forall r A0, nth_error As r = Some A0 -> dist_part (length sds) tiles r A0).
  { intros r A0 E0. assert (Hr : r < P) by (rewrite <- LA; apply nth_error_Some; congruence).
    destruct (HA r Hr) as (D & Of & lo & hi & _ & E1 & _ & DPr & _). congruence. }
  assert (HR : forall r A0, nth_error As r = Some A0 -> (Z.of_nat (received tiles A0) < 2 ^ 31)%Z).
  { intros r A0 _. assert (received tiles A0 <= length sds * P); [|lia].
    unfold received. etransitivity; [apply (list_sum_le _ (fun t => snd t - fst t)); intros; apply demand_le|].
    rewrite (tiles_total _ _ _ Tt). nia. }
  assert (HS : forall r t, nth_error tiles r = Some t -> (Z.of_nat (sent As t) < 2 ^ 31)%Z).
  { intros r t Er. assert (sent As t <= length sds * P); [|lia]. unfold sent.
    etransitivity; [apply (list_sum_le _ (fun _ => length sds))|].
    - intros x. etransitivity; [apply demand_le|]. destruct t as [lo hi]. destruct (tiling_nth _ _ _ Tt _ _ _ Er). cbn. lia.
    - rewrite <- LA. clearbody As. clear. induction As as [|x l IH]; cbn; [lia|]. unfold list_sum in IH. cbn in IH. nia. }
  assert (LAt : length As = length tiles) by congruence.
  pose proof (generate_ok (length sds) tiles As dflt Tt LAt DP HR HS dbg) as EI.
  remember (map (plan tiles As dflt) (seq 0 (length tiles))) as infos eqn:Einf. clear Einf.
  exists A, tiles, As, infos. do 3 (split; [auto|]). split.
  { intros r Hr. destruct (HA r Hr) as (D & Of & lo & hi & E1 & E2 & _). eauto. }
  split; auto. intros Vs AVs LV LAV HV.
  destruct (c42 dbg (length sds) tiles As Vs AVs v alpha' beta' Tt) as (infos' & EI' & _ & AL); auto; try congruence.
  assert (infos' = infos) by congruence. subst infos'.
  eapply always_weaken; [|exact AL]. cbn beta. intros out (_ & F) r lo hi Er i Hi.
  assert (Hr : r < P) by (rewrite <- Lt; apply nth_error_Some; congruence).
  destruct (HA r Hr) as (D & Of & lo' & hi' & _ & E1 & E2 & _ & DE).
  assert (lo' = lo /\ hi' = hi) as [-> ->] by (rewrite E2 in Er; inversion Er; auto).
  destruct (F r _ lo hi E1 Er) as (_ & F1 & _). rewrite F1 by auto. f_equal. f_equal.
  apply sum_ext. intros j Hj. apply in_seq in Hj. rewrite DE by lia. reflexivity.
Qed.

(** ** C43 *)
Lemma tile_loop_nth k per : forall last r, r < k -> nth_error (tile_loop k per last) r = Some (last + r * per, last + (r + 1) * per).
Proof.
  induction k as [|k IH]; intros last r Hr; [lia|]. destruct r as [|r]; cbn [tile_loop nth_error].
  - f_equal; f_equal; lia.
  - rewrite IH by lia. f_equal. f_equal; lia.
Qed.
Lemma add_last_nth l c : forall l', add_last l c = Ok l' -> forall r,
  nth_error l' r = match nth_error l r with
    | Some (x, y) => Some (x, if S r =? length l then y + c else y) | None => None end.
Proof.
  induction l as [|[x y] l IH]; intros l' E r; [discriminate|]. destruct l as [|z l].
  - cbn in E. injection E as <-. destruct r as [|[|r]]; reflexivity.
  - change (add_last ((x, y) :: z :: l) c) with (do r' <- add_last (z :: l) c; Ok ((x, y) :: r')) in E.
    destruct (add_last (z :: l) c) as [r'|]; cbn [bind] in E; [|discriminate]. injection E as <-.
    destruct r as [|r]; [reflexivity|]. cbn [nth_error]. rewrite (IH r' eq_refl r). reflexivity.
Qed.
Lemma c43_default M P : 0 < P ->
  exists t, default_tiles M P = Ok t /\ length t = P /\
    forall r, r < P -> nth_error t r = Some (r * (M / P), if S r =? P then M else (r + 1) * (M / P)).
Proof.
  intros HP. destruct (default_tiles_ok M P HP) as (t & E & L & _). exists t. split; auto. split; auto.
  intros r Hr. unfold default_tiles in E. destruct (Nat.eqb_spec P 0); [lia|].
  rewrite (add_last_nth _ _ _ E r). cbn [length]. rewrite tile_loop_len.
  replace (S (P - 1)) with P by lia.
  assert (X : nth_error ((0, M / P) :: tile_loop (P - 1) (M / P) (M / P)) r = Some (r * (M / P), (r + 1) * (M / P))).
  { destruct r as [|r]; cbn [nth_error]; [f_equal; f_equal; lia|]. rewrite tile_loop_nth by lia. repeat f_equal; lia. }
  rewrite X. f_equal. f_equal. destruct (Nat.eqb_spec (S r) P) as [e|e]; auto.
  replace (r + 1) with P by lia. pose proof (Nat.div_mod M P ltac:(lia)). lia.
Qed.
Lemma c43_owner M P : 0 < P ->
  (exists t, default_tiles M P = Ok t /\ tiling 0 M t /\ length t = P) /\
  forall t, tiling 0 M t -> forall i, i < M -> exists r x y, nth_error t r = Some (x, y) /\ x <= i < y /\
      forall r' x' y', nth_error t r' = Some (x', y') -> x' <= i < y' -> r' = r.
Proof.
  intros HP. split.
  - destruct (default_tiles_ok M P HP) as (t & E & L & T). eauto.
  - intros t T i Hi. apply (tiling_owner _ _ _ T). lia.
Qed.
Lemma c43_custom M P t : 0 < P -> (custom_tiles M P t = Ok t <-> length t = P /\ tiling 0 M t).
Proof.
  intros HP. split.
  - intros E. apply custom_tiles_ok in E. tauto.
  - intros [L T]. apply custom_tiles_accepts; auto. lia.
Qed.
Lemma c43_custom_throws M P t : 0 < P -> ~ (length t = P /\ tiling 0 M t) -> custom_tiles M P t = Err Throw.
Proof.
  intros HP N. destruct (custom_tiles M P t) as [t'|e] eqn:E.
  - exfalso. apply N. apply custom_tiles_ok in E. tauto.
  - unfold custom_tiles in E. destruct (negb (length t =? P)) eqn:EL; [congruence|].
    destruct t as [|t0 t]; [apply negb_false_iff, Nat.eqb_eq in EL; cbn in EL; lia|].
    repeat match type of E with (if ?c then _ else _) = _ => destruct c end; congruence.
Qed.

Definition ex_tile (m n ind : nat) (rp ci : list nat) (k : nat) : csr := mk_csr m n ind rp ci (map (fun x => inject (x + k)) ci).
Definition ex_dist : list dist_csr := [
  mk_dist 4 [(0, 1); (1, 4)] (ex_tile 1 1 0 [0; 1] [0] 3) (Some (ex_tile 1 4 0 [0; 2] [1; 3] 1));
  mk_dist 4 [(0, 1); (1, 4)] (ex_tile 3 3 0 [0; 2; 2; 3] [0; 2; 1] 2) (Some (ex_tile 3 4 0 [0; 1; 1; 2] [0; 0] 1)) ].
Lemma ex_tiling : tiling 0 4 [(0, 1); (1, 4)].
Proof. constructor; [lia|]. constructor; [lia|]. constructor. Qed.
Ltac wf_tac := unfold csr_wf, wf_compressed; cbn; split; [reflexivity|]; split; [reflexivity|]; split;
   [intros i Hi; do 4 (destruct i as [|i]; [cbn; lia|]); lia|]; split; [reflexivity|]; split; [reflexivity|];
   intros c Hc; repeat (destruct Hc as [<-|Hc]; [lia|]); destruct Hc.
Lemma ex_dist_part r A : nth_error ex_dist r = Some A -> dist_part 4 [(0, 1); (1, 4)] r A.
Proof.
  intros E. destruct r as [|[|r]]; cbn [ex_dist nth_error] in E; [| |destruct r; discriminate];
    injection E as <-; (split; [reflexivity|]; split; [reflexivity|]).
  - exists 0, 1. split; [reflexivity|]. cbn [d_diag d_off]. split; [wf_tac|]. split; [reflexivity|]. split; [reflexivity|].
    intros B EB. injection EB as <-. split; [wf_tac|]. do 3 (split; [reflexivity|]).
    cbn. intros c Hc. repeat (destruct Hc as [<-|Hc]; [lia|]). destruct Hc.
  - exists 1, 4. split; [reflexivity|]. cbn [d_diag d_off]. split; [wf_tac|]. split; [reflexivity|]. split; [reflexivity|].
    intros B EB. injection EB as <-. split; [wf_tac|]. do 3 (split; [reflexivity|]).
    cbn. intros c Hc. repeat (destruct Hc as [<-|Hc]; [lia|]). destruct Hc.
Qed.

Lemma c43_copy_ref : exists M P tiles r A A', custom_tiles M P tiles = Ok tiles /\
  dist_part M tiles r A /\ dist_copy P A = Ok A' /\ d_tiles A' <> d_tiles A /\ ~ dist_part M (d_tiles A') r A'.
Proof.
  exists 4, 2, [(0, 1); (1, 4)], 0.
  destruct (nth_error ex_dist 0) as [A|] eqn:E; [|discriminate]. pose proof (ex_dist_part 0 A E) as DP.
  cbn in E. injection E as <-. eexists. eexists. split; [reflexivity|]. split; [exact DP|].
  split; [reflexivity|]. cbn [d_tiles]. split; [discriminate|].
  intros (_ & _ & lo & hi & E & _ & m & _). cbn in E, m. injection E as <- <-. cbn in m. discriminate.
Qed.
Lemma c41_ex : csr_wf (mk_csr 2 3 1 [1; 3; 4] [1; 3; 2] [1%Qc; inject 2; inject 3]) /\
  csr_entry (mk_csr 2 3 1 [1; 3; 4] [1; 3; 2] [1%Qc; inject 2; inject 3]) 0 2 = inject 2 /\
  (forall k, k < 2 -> k * 4 + 3 <= length (repeat 1%Qc 8)) /\ (forall k, k < 2 -> k * 3 + 2 <= length (repeat 0%Qc 6)).
Proof.
  split; [wf_tac|]. split; [vm_compute; reflexivity|]. split; intros k Hk; rewrite repeat_length; lia.
Qed.
Lemma c42_ex : tiling 0 4 [(0, 1); (1, 4)] /\ length ex_dist = 2 /\
  (forall r A, nth_error ex_dist r = Some A -> dist_part 4 [(0, 1); (1, 4)] r A) /\
  map (received [(0, 1); (1, 4)]) ex_dist = [2; 1] /\ map (sent ex_dist) [(0, 1); (1, 4)] = [1; 2].
Proof. split; [exact ex_tiling|]. split; [reflexivity|]. split; [exact ex_dist_part|]. split; vm_compute; reflexivity. Qed.

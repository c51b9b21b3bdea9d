(** The distributed product. *)
From Coq Require Import QArith Qcanon Sorting.Permutation Sorting.Sorted.
From Verif Require Import Base Sums Nondet Ham SparseSpec CsrView CsrProofs Dist DistProofs Asci Constraint ConstraintSearch2 ConstraintSearch3 Collective CollectiveProofs Mem MemProofs Spmv SpmvSpec SpmvProofs PSpmvProofs PSpmvProofs2.
Local Open Scope nat_scope.

Lemma foldM_inv {A S} (f : S -> A -> res S) (I : list A -> S -> Prop) l : forall done s,
  I done s -> (forall done x s, I done s -> In x l -> exists s', f s x = Ok s' /\ I (done ++ [x]) s') ->
  exists s', foldM l f s = Ok s' /\ I (done ++ l) s'.
Proof.
  induction l as [|x l IH]; intros done s H0 H; cbn [foldM].
  - exists s. rewrite app_nil_r. auto.
  - destruct (H done x s H0 (or_introl eq_refl)) as (s1 & E & H1). rewrite E. cbn [bind].
    destruct (IH (done ++ [x]) s1 H1) as (s2 & E2 & H2).
    + intros; apply H; auto. right; auto.
    + exists s2. split; auto. rewrite <- app_assoc in H2. exact H2.
Qed.

(** packing: gather *)
Lemma permute_backward_ok {A} (V : list A) idx d : (forall p, In p idx -> p < length V) ->
  permute_backward (length idx) V idx (repeat None (length idx)) = Ok (map (fun p => Some (nth p V d)) idx).
Proof.
  intros H. unfold permute_backward.
  destruct (foldM_inv (fun Vp i => do p <- at_ idx i; do v <- at_ V p; put Vp i (Some v))
     (fun done s => length s = length idx /\ forall i, i < length idx ->
        nth i s None = if existsb (Nat.eqb i) done then Some (nth (nth i idx 0) V d) else None)
     (seq 0 (length idx)) [] (repeat None (length idx))) as (s' & E & L & R).
  - split; [apply repeat_length|]. intros i Hi. apply nth_repeat.
  - intros done i s (L & R) Hi. apply in_seq in Hi. rewrite (at_ok _ _ 0) by lia. cbn [bind].
    rewrite (at_ok V _ d) by (apply H, nth_In; lia). cbn [bind]. rewrite put_ok by lia.
    eexists. split; [reflexivity|]. split; [rewrite upd_length; auto|].
    intros j Hj. rewrite upd_nth by lia. rewrite existsb_app. cbn [existsb]. rewrite orb_false_r.
    destruct (Nat.eqb_spec j i) as [->|N]; [rewrite orb_true_r; reflexivity|]. rewrite orb_false_r. apply R, Hj.
  - rewrite E. f_equal. apply (nth_ext' _ _ None); [rewrite map_length; auto|].
    intros i Hi. rewrite R by lia. cbn [app]. rewrite existsb_seq by lia.
    rewrite (nth_indep _ None (Some (nth 0 V d))) by (rewrite map_length; lia).
    rewrite (map_nth (fun p => Some (nth p V d)) idx 0). reflexivity.
Qed.

(** unpacking: scatter of values determined by the index *)
Lemma permute_forward_ok {A} (v : nat -> A) idx n : (forall p, In p idx -> p < n) ->
  exists s, permute_forward (length idx) (map v idx) idx (repeat None n) = Ok s /\ length s = n /\
    forall p, In p idx -> load s p = Ok (v p).
Proof.
  intros H. unfold permute_forward.
  destruct (foldM_inv (fun Vp i => do p <- at_ idx i; do x <- at_ (map v idx) i; put Vp p (Some x))
     (fun done s => length s = n /\ forall i, In i done -> i < length idx -> nth (nth i idx 0) s None = Some (v (nth i idx 0)))
     (seq 0 (length idx)) [] (repeat None n)) as (s' & E & L & R).
  - split; [apply repeat_length|]. intros i [].
  - intros done i s (L & R) Hi. apply in_seq in Hi. rewrite (at_ok _ _ 0) by lia. cbn [bind].
    rewrite (at_ok (map v idx) i (v 0)) by (rewrite map_length; lia). cbn [bind]. rewrite map_nth.
    assert (Lp : nth i idx 0 < length s) by (rewrite L; apply H, nth_In; lia).
    rewrite put_ok by auto. eexists. split; [reflexivity|]. split; [rewrite upd_length; auto|].
    intros j Hj Hj'. rewrite upd_nth by auto. destruct (Nat.eqb_spec (nth j idx 0) (nth i idx 0)) as [->|N]; auto.
    apply in_app_or in Hj. destruct Hj as [Hj|[->|[]]]; [auto|congruence].
  - exists s'. split; auto. split; auto. intros p Hp. apply (In_nth _ _ 0) in Hp. destruct Hp as (i & Hi & <-).
    unfold load. assert (X : nth (nth i idx 0) s' None = Some (v (nth i idx 0))) by (apply R; auto; apply in_seq; lia).
    assert (Lp : nth i idx 0 < length s') by (rewrite L; apply H, nth_In; auto).
    rewrite (nth_error_nth' s' None Lp), X. reflexivity.
Qed.

(** writing consecutive pieces at their offsets *)
Lemma put_all_ok {A} (xs : list A) : forall a l, put_all (a ++ l) (length a) xs =
  if length xs <=? length l then Ok (a ++ xs ++ skipn (length xs) l) else Err UB.
Proof.
  induction xs as [|x xs IH]; intros a l; cbn [put_all length].
  - reflexivity.
  - destruct l as [|y l].
    + rewrite app_nil_r. assert (X : forall b : list A, put b (length b) x = Err UB) by (induction b; cbn; auto; rewrite IHb; reflexivity).
      rewrite X. reflexivity.
    + rewrite put_ok by (rewrite app_length; cbn; lia). cbn [bind].
      assert (U : upd (a ++ y :: l) (length a) x = (a ++ [x]) ++ l).
      { rewrite <- app_assoc. cbn [app]. clear. induction a; cbn; congruence. }
      rewrite U. replace (S (length a)) with (length (a ++ [x])) by (rewrite app_length; cbn; lia).
      rewrite IH. cbn [length skipn]. destruct (length xs <=? length l) eqn:E.
      * apply Nat.leb_le in E. destruct (Nat.leb_spec (S (length xs)) (S (length l))); [|lia]. rewrite <- app_assoc. reflexivity.
      * apply Nat.leb_gt in E. destruct (Nat.leb_spec (S (length xs)) (S (length l))); [lia|]. reflexivity.
Qed.

Lemma nonzero_eq (f : nat -> nat) P : nonzero (map f (seq 0 P)) =
  filter (fun ic => negb (snd ic =? 0)) (map (fun i => (i, f i)) (seq 0 P)).
Proof.
  unfold nonzero. rewrite map_length, seq_length. f_equal.
  rewrite <- (map_id (seq 0 P)) at 1. rewrite combine_map2. reflexivity.
Qed.
Lemma starts_nth_nat (f : nat -> nat) P i : i < P ->
  nth_error (starts 0 (map Z.of_nat (map f (seq 0 P)))) i = Some (Z.of_nat (list_sum (map f (seq 0 i)))).
Proof.
  intros H. rewrite starts_nth by (rewrite !map_length, seq_length; auto). rewrite Z.add_0_l. f_equal.
  rewrite !firstn_map. replace (firstn i (seq 0 P)) with (seq 0 i).
  - apply sumz_nat.
  - replace P with (i + (P - i)) by lia. rewrite seq_app, firstn_app, seq_length, Nat.sub_diag. cbn [firstn].
    rewrite app_nil_r. rewrite firstn_all2 by (rewrite seq_length; lia). reflexivity.
Qed.

Lemma store_recv_ok (X : nat -> list Qc) P si ri so sc :
  store_recv (mk_info si ri so (starts 0 (map Z.of_nat (map (fun s => length (X s)) (seq 0 P)))) sc
      (map (fun s => length (X s)) (seq 0 P)))
    (filter (fun x => negb (length x =? 0)) (map X (seq 0 P)))
    (repeat None (length (concat (map X (seq 0 P))))) = Ok (map Some (concat (map X (seq 0 P)))).
Proof.
  unfold store_recv, post_recv. cbn [recv_counts recv_offsets]. rewrite nonzero_eq.
  assert (C : forall l, combine (filter (fun ic => negb (snd ic =? 0)) (map (fun s => (s, length (X s))) l))
               (filter (fun x => negb (length x =? 0)) (map X l)) =
            map (fun s => ((s, length (X s)), X s)) (filter (fun s => negb (length (X s) =? 0)) l)).
  { induction l as [|s l IH]; auto. cbn [map filter snd]. destruct (negb (length (X s) =? 0)); cbn [combine map]; congruence. }
  rewrite C. clear C.
  set (F := fun (buf : list (option Qc)) (icm : nat * nat * list Qc) => _).
  assert (G : forall n a, a + n = P -> forall done, length done = list_sum (map (fun s => length (X s)) (seq 0 a)) ->
    foldM (map (fun s => ((s, length (X s)), X s)) (filter (fun s => negb (length (X s) =? 0)) (seq a n)))
      F (done ++ repeat None (length (concat (map X (seq a n))))) =
    Ok (done ++ map Some (concat (map X (seq a n))))).
  { induction n as [|n IH]; intros a Ha done Hd; cbn [seq filter map concat length repeat foldM]; auto.
    assert (Hnext : list_sum (map (fun s => length (X s)) (seq 0 (S a))) = length done + length (X a)).
    { rewrite seq_S, map_app, list_sum_app. cbn. rewrite <- Hd. lia. }
    destruct (Nat.eqb_spec (length (X a)) 0) as [E|E]; cbn [negb].
    - assert (X a = []) as EX by (destruct (X a); auto; discriminate). rewrite EX. cbn [app].
      apply (IH (S a)); lia.
    - cbn [map foldM]. unfold F at 1. rewrite (at_nth_error _ _ (Z.of_nat (length done))).
      2:{ rewrite (starts_nth_nat (fun s => length (X s))) by lia. rewrite Hd. reflexivity. }
      cbn [bind]. destruct (Z.ltb_spec (Z.of_nat (length done)) 0); [lia|]. rewrite Nat2Z.id.
      rewrite put_all_ok. rewrite map_length, repeat_length, app_length.
      destruct (Nat.leb_spec (length (X a)) (length (X a) + length (concat (map X (seq (S a) n))))); [|lia].
      cbn [bind]. rewrite repeat_app, skipn_app, repeat_length, Nat.sub_diag. rewrite skipn_all2 by (rewrite repeat_length; lia).
      cbn [app skipn]. rewrite app_assoc. rewrite (IH (S a)); try lia.
      + rewrite map_app, app_assoc. reflexivity.
      + rewrite app_length, map_length. lia. }
  apply (G P 0 eq_refl []). reflexivity.
Qed.

Lemma all_init_ok {A} (l : list A) : all_init (map Some l) = Ok l.
Proof. unfold all_init. induction l as [|x l IH]; cbn; auto. rewrite IH. reflexivity. Qed.

Lemma post_send_ok (X : nat -> list Qc) P si ri ro rc :
  post_send (mk_info si ri (starts 0 (map Z.of_nat (map (fun s => length (X s)) (seq 0 P)))) ro
      (map (fun s => length (X s)) (seq 0 P)) rc) (map Some (concat (map X (seq 0 P)))) =
  Ok (filter (fun ic => negb (length (snd ic) =? 0)) (map (fun d => (d, X d)) (seq 0 P))).
Proof.
  unfold post_send. cbn [send_counts send_offsets]. rewrite nonzero_eq.
  rewrite (mapM_ok _ (fun ic => (fst ic, X (fst ic)))).
  - f_equal. induction (seq 0 P) as [|s l IH]; auto. cbn [map filter snd].
    destruct (negb (length (X s) =? 0)); cbn [map fst]; rewrite ?IH; reflexivity.
  - intros ic Hic. apply filter_In in Hic. destruct Hic as [Hic _]. apply in_map_iff in Hic.
    destruct Hic as (i & <- & Hi). apply in_seq in Hi. cbn [fst].
    rewrite (at_nth_error _ _ _ (starts_nth_nat (fun s => length (X s)) P i ltac:(lia))). cbn [bind].
    set (off := list_sum (map (fun s => length (X s)) (seq 0 i))).
    destruct (Z.ltb_spec (Z.of_nat off) 0); [lia|]. rewrite Nat2Z.id.
    assert (SP : seq 0 P = seq 0 i ++ i :: seq (S i) (P - S i)).
    { replace P with (i + S (P - S i)) at 1 by lia. rewrite seq_app. reflexivity. }
    assert (Lo : off = length (concat (map X (seq 0 i)))).
    { rewrite concat_length, map_map. reflexivity. }
    rewrite SP, map_app, concat_app. cbn [map concat]. rewrite !map_app.
    rewrite slice_ok.
    + replace (off + length (X i) - off) with (length (X i)) by lia.
      rewrite skipn_app, skipn_all2 by (rewrite map_length; lia). cbn [app].
      replace (off - length (map Some (concat (map X (seq 0 i))))) with 0 by (rewrite map_length; lia). cbn [skipn].
      rewrite firstn_app, map_length, Nat.sub_diag. cbn [firstn]. rewrite app_nil_r.
      rewrite firstn_all2 by (rewrite map_length; lia). cbn [bind].
      change (mapM _ (map Some (X i))) with (all_init (map Some (X i))). rewrite all_init_ok. reflexivity.
    + lia.
    + rewrite !app_length, !map_length. lia.
Qed.

Lemma sum_seq_shift (f : nat -> Qc) n : forall a b, sum (seq (a + b) n) f = sum (seq a n) (fun j => f (j + b)).
Proof.
  induction n as [|n IH]; intros a b; cbn [seq sum]; auto. f_equal. rewrite <- (IH (S a) b). reflexivity.
Qed.
Lemma sum_seq_split (f : nat -> Qc) M lo hi : lo <= hi -> hi <= M ->
  sum (seq 0 M) f = (sum (seq 0 lo) f + sum (seq 0 (hi - lo)) (fun j => f (j + lo)%nat) + sum (seq hi (M - hi)) f)%Qc.
Proof.
  intros H H'. replace M with (lo + ((hi - lo) + (M - hi))) at 1 by lia.
  rewrite !seq_app, !sum_app. rewrite <- (sum_seq_shift f (hi - lo) 0 lo). cbn [plus].
  replace (lo + (hi - lo)) with hi by lia. ring.
Qed.

(** a row of the distributed matrix times a vector *)
Lemma dist_row_sum M tiles r A lo hi i v : tiling 0 M tiles -> dist_part M tiles r A ->
  nth_error tiles r = Some (lo, hi) -> i < hi - lo ->
  sum (seq 0 M) (fun j => dist_entry A lo hi i j * v j)%Qc =
  (sum (seq 0 (hi - lo)) (fun j => csr_entry (d_diag A) i j * v (lo + j)%nat) +
   match d_off A with None => 0 | Some B => sum (seq 0 M) (fun j => csr_entry B i j * v j) end)%Qc.
Proof.
  intros T (_ & _ & lo' & hi' & E & WD & mD & nD & HB) E' Hi.
  assert (lo' = lo /\ hi' = hi) as [-> ->] by (rewrite E in E'; inversion E'; auto).
  destruct (tiling_nth _ _ _ T _ _ _ E) as (L0 & L1 & L2).
  rewrite (sum_seq_split _ M lo hi L1 L2).
  assert (In1 : sum (seq 0 (hi - lo)) (fun j => dist_entry A lo hi i (j + lo) * v (j + lo)%nat)%Qc =
                sum (seq 0 (hi - lo)) (fun j => csr_entry (d_diag A) i j * v (lo + j)%nat)%Qc).
  { apply sum_ext. intros j Hj. apply in_seq in Hj. unfold dist_entry.
    destruct (Nat.leb_spec lo (j + lo)); [|lia]. destruct (Nat.ltb_spec (j + lo) hi); [|lia]. cbn [andb].
    replace (j + lo - lo) with j by lia. replace (lo + j) with (j + lo) by lia. reflexivity. }
  rewrite In1.
  assert (Out : forall j, j < lo \/ hi <= j -> dist_entry A lo hi i j = match d_off A with None => 0%Qc | Some B => csr_entry B i j end).
  { intros j Hj. unfold dist_entry. destruct (Nat.leb_spec lo j); destruct (Nat.ltb_spec j hi); cbn [andb]; auto; lia. }
  rewrite (sum_ext (seq 0 lo) _ (fun j => match d_off A with None => 0 | Some B => csr_entry B i j end * v j)%Qc)
    by (intros j Hj; apply in_seq in Hj; rewrite Out by lia; reflexivity).
  rewrite (sum_ext (seq hi (M - hi)) _ (fun j => match d_off A with None => 0 | Some B => csr_entry B i j end * v j)%Qc)
    by (intros j Hj; apply in_seq in Hj; rewrite Out by lia; reflexivity).
  destruct (d_off A) as [B|].
  - destruct (HB B eq_refl) as (WB & mB & nB & iB & HC).
    rewrite (sum_seq_split (fun j => csr_entry B i j * v j)%Qc M lo hi L1 L2).
    rewrite (sum_zero (seq 0 (hi - lo)) (fun j => csr_entry B i (j + lo) * v (j + lo)%nat)%Qc); [ring|].
    intros j Hj. apply in_seq in Hj. unfold csr_entry, entry. rewrite sum_zero; [ring|].
    intros cv Hcv. destruct (Nat.eqb_spec (fst cv) (j + lo)) as [e|]; auto.
    apply (csr_line_In B i cv WB) in Hcv; [|lia]. destruct Hcv as [_ Hcv]. rewrite iB in Hcv.
    apply HC in Hcv. cbn [plus] in Hcv. lia.
  - rewrite (sum_zero (seq 0 lo)) by (intros; ring). rewrite (sum_zero (seq hi _)) by (intros; ring). ring.
Qed.

Lemma mapND_seq {A B} (f : A -> nd B) (g : nat -> A) (Q : nat -> B -> Prop) d n : forall a,
  (forall r, a <= r < a + n -> always (f (g r)) (Q r)) ->
  always (mapND f (map g (seq a n))) (fun bs => length bs = n /\ forall r, r < n -> Q (a + r) (nth r bs d)).
Proof.
  induction n as [|n IH]; intros a H; cbn [seq map mapND].
  - apply always_ret. split; auto. lia.
  - apply always_bind with (P := Q a); [apply H; lia|]. intros b Hb.
    eapply always_bind; [apply (IH (S a)); intros; apply H; lia|]. cbn beta. intros bs (L & Hbs).
    apply always_ret. split; [cbn; lia|]. intros [|r] Hr; cbn [nth].
    + rewrite Nat.add_0_r. exact Hb.
    + replace (a + S r) with (S a + r) by lia. apply Hbs. lia.
Qed.

Section PRODUCT.
  Variables (M : nat) (tiles : list (nat * nat)) (As : list dist_csr) (dflt : dist_csr).
  Notation P := (length tiles).
  Hypothesis T : tiling 0 M tiles.
  Hypothesis LA : length As = P.
  Hypothesis D : forall r A, nth_error As r = Some A -> dist_part M tiles r A.
  Variables (Vs AVs : list (list Qc)) (v : nat -> Qc) (alpha beta : Qc).
  Hypothesis LV : length Vs = P.
  Hypothesis LAV : length AVs = P.
  Hypothesis HV : forall r lo hi, nth_error tiles r = Some (lo, hi) ->
    hi - lo <= length (nth r Vs []) /\ forall p, p < hi - lo -> nth p (nth r Vs []) 0%Qc = v (lo + p).
  Hypothesis HAV : forall r lo hi, nth_error tiles r = Some (lo, hi) -> hi - lo <= length (nth r AVs []).
  Notation Ar r := (nth r As dflt).
  Notation tl r := (nth r tiles (0, 0)).
  Notation R r s := (demand (Ar r) (tl s)).
  Notation pl := (plan tiles As dflt).

  Definition product_ok (r : nat) (AV' : list Qc) : Prop :=
    forall lo hi, nth_error tiles r = Some (lo, hi) ->
      length AV' = length (nth r AVs []) /\
      (forall i, i < hi - lo -> nth i AV' 0%Qc =
        (alpha * sum (seq 0 M) (fun j => dist_entry (Ar r) lo hi i j * v j) + beta * nth i (nth r AVs []) 0)%Qc) /\
      (forall i, hi - lo <= i -> nth i AV' 0%Qc = nth i (nth r AVs []) 0%Qc).

  Lemma pgespmv_ok :
    always (pgespmv alpha beta (map (fun r => (Ar r, nth r Vs [], nth r AVs [], pl r)) (seq 0 P)))
      (fun out => length out = P /\ forall r, r < P -> product_ok r (nth r out [])).
  Proof.
    unfold pgespmv.
    apply always_bind with (P := fun sends => sends =
      map (fun s => filter (fun ic => negb (length (snd ic) =? 0)) (map (fun d => (d, map v (R d s))) (seq 0 P))) (seq 0 P)).
    { eapply always_det; [|reflexivity].
      rewrite (mapM_map _ _ (seq 0 P)). apply mapM_seq. intros r Hr. cbn beta iota.
      set (X := fun d => map v (R d r)).
      assert (EX : map (fun i => length (R i r)) (seq 0 P) = map (fun s => length (X s)) (seq 0 P)).
      { apply map_ext. intros i. unfold X. rewrite map_length. reflexivity. }
      cbn [send_indices plan].
      rewrite (permute_backward_ok (nth r Vs []) _ 0%Qc).
      - cbn [bind]. rewrite map_map. unfold plan. rewrite EX.
        assert (EC : map (fun x => Some (nth (x - fst (tl r)) (nth r Vs []) 0%Qc)) (concat (map (fun i => R i r) (seq 0 P))) =
                     map Some (concat (map X (seq 0 P)))).
        { unfold X. rewrite <- (map_map (fun d => R d r) (map v)), <- concat_map, map_map. apply map_ext_in. intros c Hc. f_equal.
          apply in_concat in Hc. destruct Hc as (l & Hl & Hc). apply in_map_iff in Hl. destruct Hl as (i & <- & Hi).
          apply (R_In M tiles As dflt T LA i r c Hr) in Hc.
          destruct (tl r) as [lo hi] eqn:Et. cbn [fst snd] in *.
          assert (E : nth_error tiles r = Some (lo, hi)) by (rewrite <- Et; apply nth_error_nth'; auto).
          destruct (HV r lo hi E) as [_ HVr]. rewrite HVr by lia. f_equal. lia. }
        rewrite EC. apply post_send_ok.
      - intros p Hp. apply in_map_iff in Hp. destruct Hp as (c & <- & Hc).
        apply in_concat in Hc. destruct Hc as (l & Hl & Hc). apply in_map_iff in Hl. destruct Hl as (i & <- & Hi).
        apply (R_In M tiles As dflt T LA i r c Hr) in Hc.
        destruct (tl r) as [lo hi] eqn:Et. cbn [fst snd] in *.
        assert (E : nth_error tiles r = Some (lo, hi)) by (rewrite <- Et; apply nth_error_nth'; auto).
        destruct (HV r lo hi E) as [HL _]. lia. }
    intros sends ->. cbn zeta.
    apply always_bind with (P := fun avs => length avs = P /\ forall r, r < P -> forall lo hi, nth_error tiles r = Some (lo, hi) ->
      length (nth r avs []) = length (nth r AVs []) /\
      (forall i, i < hi - lo -> nth i (nth r avs []) 0%Qc =
        (alpha * sum (seq 0 (hi - lo)) (fun j => csr_entry (d_diag (Ar r)) i j * v (lo + j)%nat) + beta * nth i (nth r AVs []) 0)%Qc) /\
      (forall i, hi - lo <= i -> nth i (nth r avs []) 0%Qc = nth i (nth r AVs []) 0%Qc)).

    { eapply always_weaken; [|apply (mapND_seq _ _ (fun r AV' => forall lo hi, nth_error tiles r = Some (lo, hi) ->
          length AV' = length (nth r AVs []) /\
          (forall i, i < hi - lo -> nth i AV' 0%Qc =
            (alpha * sum (seq 0 (hi - lo)) (fun j => csr_entry (d_diag (Ar r)) i j * v (lo + j)%nat) + beta * nth i (nth r AVs []) 0)%Qc) /\
          (forall i, hi - lo <= i -> nth i AV' 0%Qc = nth i (nth r AVs []) 0%Qc)) [])].
      - cbn beta. intros avs (L & F). split; auto.
      - intros r Hr.
        destruct (part M tiles As dflt LA D r ltac:(lia)) as (En & _ & lo & hi & E & WD & mD & nD & _).
        destruct (HV r lo hi E) as [HV1 HV2]. pose proof (HAV r lo hi E) as HAVr.
        eapply always_weaken; [|apply (gespmbv_ok 1 alpha (d_diag (Ar r)) (map Some (nth r Vs [])) _ beta (nth r AVs []) _ (fun _ j => v (lo + j))); auto].
        + cbn beta. rewrite mD, nD. intros AV' (L & R1 & U) lo' hi' E'.
          assert (lo' = lo /\ hi' = hi) as [-> ->] by (rewrite E in E'; inversion E'; auto).
          split; auto. split.
          * intros i Hi. specialize (R1 0 i ltac:(lia) Hi). rewrite Nat.mul_0_l, Nat.add_0_r in R1. exact R1.
          * intros i Hi. apply U. intros k i' Hk Hi'. assert (k = 0) by lia. subst k. lia.
        + intros k i cv Hk Hi Hcv. assert (k = 0) by lia. subst k. cbn [Nat.mul plus].
          apply csr_line_In in Hcv; auto. destruct Hcv as [Hcv _]. unfold load.
          rewrite (nth_error_nth' _ (Some 0%Qc)) by (rewrite map_length; lia). rewrite map_nth. rewrite HV2 by lia. reflexivity.
        + intros k Hk. assert (k = 0) by lia. subst k. cbn [Nat.mul plus]. lia. }
    intros avs (Lavs & Havs).
    set (recvs := map _ (map _ (seq 0 P))).
    assert (ER : recvs = map (fun d => filter (fun ic => negb (snd ic =? 0)) (map (fun s => (s, length (map v (R d s)))) (seq 0 P))) (seq 0 P)).
    { unfold recvs. rewrite map_map. apply map_ext. intros d. unfold post_recv, plan. cbn [recv_counts].
      rewrite nonzero_eq. f_equal. apply map_ext. intros s. rewrite map_length. reflexivity. }
    clearbody recvs. subst recvs.
    apply always_bind with (P := fun got => got = map (fun d => filter (fun x => negb (length x =? 0)) (map (fun s => map v (R d s)) (seq 0 P))) (seq 0 P)).
    { eapply always_det; [|reflexivity]. apply (exchange_ok P (fun s d => map v (R d s))). }
    intros got ->.
    rewrite (list_as_map avs []), Lavs. rewrite !combine_map2.
    eapply always_weaken; [|apply (mapND_seq _ _ product_ok [])].
    { cbn beta. intros out (L & F). auto. }
    intros r Hr. cbn beta iota. assert (Lr : r < P) by lia.
    destruct (part M tiles As dflt LA D r Lr) as (En & _ & lo & hi & E & WD & mD & nD & HB).
    set (X := fun s => map v (R r s)).
    assert (EX : map (fun s => length (R r s)) (seq 0 P) = map (fun s => length (X s)) (seq 0 P)).
    { apply map_ext. intros s. unfold X. rewrite map_length. reflexivity. }
    assert (EC : concat (map X (seq 0 P)) = map v (concat (map (fun s => R r s) (seq 0 P)))).
    { unfold X. rewrite <- (map_map (fun s => R r s) (map v)), <- concat_map. reflexivity. }
    apply always_bind with (P := fun pack => pack = map Some (concat (map X (seq 0 P)))).
    { eapply always_det; [|reflexivity]. unfold plan. cbn [recv_indices]. rewrite EX.
      replace (length (concat (map (fun s => R r s) (seq 0 P)))) with (length (concat (map X (seq 0 P)))) by (rewrite EC, map_length; auto).
      apply store_recv_ok. }
    intros pack ->.
    apply always_bind with (P := fun buf => buf = concat (map X (seq 0 P))).
    { eapply always_det; [apply all_init_ok|reflexivity]. }
    intros buf ->.
    assert (HM : forall p, In p (concat (map (fun s => R r s) (seq 0 P))) -> p < M).
    { intros p Hp. apply in_concat in Hp. destruct Hp as (l & Hl & Hp). apply in_map_iff in Hl. destruct Hl as (s & <- & Hs).
      apply in_seq in Hs. apply (R_In M tiles As dflt T LA) in Hp; [|lia]. pose proof (tl_bounds M tiles As T LA s ltac:(lia)). lia. }
    destruct (permute_forward_ok v (concat (map (fun s => R r s) (seq 0 P))) M HM) as (remote & Er & Lrem & Hrem).
    apply always_bind with (P := fun x => x = remote).
    { eapply always_det; [|reflexivity]. unfold plan. cbn [recv_indices]. rewrite EC, En. exact Er. }
    intros x ->.
    pose proof (dist_row_sum M tiles r (Ar r) lo hi) as DS.
    specialize (Havs r Lr lo hi E). destruct Havs as (L1 & R1 & U1). cbn [plus].
    destruct (d_off (Ar r)) as [B|] eqn:EB.
    - destruct (HB B eq_refl) as (WB & mB & nB & iB & HC). pose proof (HAV r lo hi E) as HAVr.
      eapply always_weaken; [|apply (gespmbv_ok 1 alpha B remote (d_n (Ar r)) 1%Qc (nth r avs []) (d_n (Ar r)) (fun _ => v)); auto].
      + cbn beta. rewrite mB, nB. intros AV' (L & R2 & U) lo' hi' E'.
        assert (lo' = lo /\ hi' = hi) as [-> ->] by (rewrite E in E'; inversion E'; auto).
        split; [congruence|]. split.
        * intros i Hi. specialize (R2 0 i ltac:(lia) Hi). rewrite Nat.mul_0_l, Nat.add_0_r in R2. rewrite R2, R1 by auto.
          rewrite (DS i v T (part M tiles As dflt LA D r Lr) E Hi). ring.
        * intros i Hi. rewrite U.
          -- apply U1, Hi.
          -- intros k i' Hk Hi'. assert (k = 0) by lia. subst k. lia.
      + intros k i cv Hk Hi Hcv. assert (k = 0) by lia. subst k. cbn [Nat.mul plus]. apply Hrem.
        apply (csr_line_In B i cv WB Hi) in Hcv. destruct Hcv as [_ Hcv]. rewrite iB in Hcv. cbn [plus] in Hcv.
        apply (R_covers M tiles As dflt T LA D r B); auto.
      + intros k Hk. assert (k = 0) by lia. subst k. cbn [Nat.mul plus]. lia.
    - apply always_ret. intros lo' hi' E'.
      assert (lo' = lo /\ hi' = hi) as [-> ->] by (rewrite E in E'; inversion E'; auto).
      split; auto. split; auto. intros i Hi. rewrite R1 by auto.
      rewrite (DS i v T (part M tiles As dflt LA D r Lr) E Hi). ring.
  Qed.
End PRODUCT.

(** The communication plan, on all ranks. *)
From Coq Require Import QArith Qcanon Sorting.Permutation Sorting.Sorted.
From Verif Require Import Base Sums Nondet Ham SparseSpec CsrView CsrProofs Dist DistProofs Asci Constraint Collective CollectiveProofs Mem MemProofs Spmv SpmvSpec SpmvProofs PSpmvProofs.
Local Open Scope nat_scope.

Lemma combine_seq {A} (l : list A) d : forall P a, length l = P ->
  combine (seq a P) l = map (fun r => (r, nth (r - a) l d)) (seq a P).
Proof.
  induction l as [|x l IH]; intros P a <-; cbn [length seq combine map]; auto.
  rewrite Nat.sub_diag. cbn [nth]. f_equal. rewrite (IH (length l) (S a) eq_refl).
  apply map_ext_in. intros r Hr. apply in_seq in Hr. replace (r - a) with (S (r - S a)) by lia. reflexivity.
Qed.
Lemma combine_seq0 {A} (l : list A) d P : length l = P -> combine (seq 0 P) l = map (fun r => (r, nth r l d)) (seq 0 P).
Proof. intros H. rewrite (combine_seq l d P 0 H). apply map_ext. intros r. rewrite Nat.sub_0_r. reflexivity. Qed.
Lemma list_as_map {A} (l : list A) d : l = map (fun r => nth r l d) (seq 0 (length l)).
Proof.
  apply (nth_ext' _ _ d); [rewrite map_length, seq_length; auto|]. intros i Hi. rewrite nth_map_seq by auto. reflexivity.
Qed.
Lemma mapM_seq {A} (f : nat -> res A) g n : (forall i, i < n -> f i = Ok (g i)) -> mapM f (seq 0 n) = Ok (map g (seq 0 n)).
Proof. intros H. apply mapM_ok. intros i Hi. apply in_seq in Hi. apply H. lia. Qed.

Lemma concat_nth (f : nat -> list nat) P n : (forall i, i < n -> length (f i) = P) -> forall i r, i < n -> r < P ->
  nth_error (concat (map f (seq 0 n))) (r + i * P) = nth_error (f i) r.
Proof.
  intros HL.
  assert (G : forall n a, (forall i, i < n -> length (f (a + i)) = P) -> forall i r, i < n -> r < P ->
     nth_error (concat (map f (seq a n))) (r + i * P) = nth_error (f (a + i)) r).
  { clear. induction n as [|n IH]; intros a HL i r Hi Hr; [lia|]. cbn [seq map concat].
    pose proof (HL 0 ltac:(lia)) as L0. rewrite Nat.add_0_r in L0. destruct i as [|i].
    - rewrite Nat.mul_0_l, Nat.add_0_r, Nat.add_0_r. apply nth_error_app1. lia.
    - rewrite nth_error_app2 by (cbn; lia). replace (r + S i * P - length (f a)) with (r + i * P) by (cbn; lia).
      replace (a + S i) with (S a + i) by lia. apply IH; auto; try lia. intros j Hj. replace (S a + j) with (a + S j) by lia. apply HL. lia. }
  intros i r. apply (G n 0 HL i r).
Qed.

Lemma starts_nat l : forall acc, starts (Z.of_nat acc) (map Z.of_nat l) = map Z.of_nat (removelast (prefix_sums acc l)).
Proof.
  induction l as [|x l IH]; intros acc; [reflexivity|]. cbn [map starts prefix_sums].
  assert (prefix_sums (acc + x) l <> []) by (destruct l; discriminate).
  rewrite <- Nat2Z.inj_add, IH. destruct (prefix_sums (acc + x) l) eqn:E; [congruence|]. reflexivity.
Qed.

  Lemma sumz_nat l : sumz (map Z.of_nat l) = Z.of_nat (list_sum l).
  Proof. induction l as [|x l IH]; auto. cbn [map]. unfold sumz in *. cbn [fold_right list_sum]. rewrite IH. unfold list_sum. lia. Qed.
  Lemma scan_ok l : (Z.of_nat (list_sum l) < 2 ^ 31)%Z ->
    exclusive_scan_z ISize 0 (map Z.of_nat l) = Ok (starts 0 (map Z.of_nat l)).
  Proof.
    intros H. apply exclusive_scan_z_ok; [lia| |].
    - apply Forall_forall. intros x Hx. apply in_map_iff in Hx. destruct Hx as (n & <- & _). lia.
    - rewrite sumz_nat. lia.
  Qed.

  Lemma find_box (X : nat -> list nat) i l : NoDup l -> In i l ->
    match find (fun p => fst (fst p) =? i)
      (combine (filter (fun ic => negb (snd ic =? 0)) (map (fun s => (s, length (X s))) l))
               (filter (fun x => negb (length x =? 0)) (map X l))) with
    | Some p => snd p | None => [] end = X i.
  Proof.
    intros ND Hi. 
    assert (C : combine (filter (fun ic => negb (snd ic =? 0)) (map (fun s => (s, length (X s))) l))
               (filter (fun x => negb (length x =? 0)) (map X l)) =
            map (fun s => ((s, length (X s)), X s)) (filter (fun s => negb (length (X s) =? 0)) l)).
    { clear. induction l as [|s l IH]; auto. cbn [map filter snd]. destruct (negb (length (X s) =? 0)); cbn [combine map]; congruence. }
    rewrite C. clear C.
    destruct (find _ _) as [p|] eqn:E.
    - apply find_some in E. destruct E as [E1 E2]. apply in_map_iff in E1. destruct E1 as (s & <- & _).
      cbn [fst] in E2. apply Nat.eqb_eq in E2. subst. reflexivity.
    - destruct (X i) as [|x xs] eqn:EX; auto. exfalso.
      pose proof (find_none _ _ E ((i, length (X i)), X i)) as F. cbn [fst] in F. rewrite Nat.eqb_refl in F.
      discriminate F. apply in_map_iff. exists i. split; auto. apply filter_In. rewrite EX. split; auto.
  Qed.

  Lemma combine_maps {A B C} (f : A -> B) (g : A -> C) l : combine (map f l) (map g l) = map (fun x => (f x, g x)) l.
  Proof. apply combine_map2. Qed.

Section PLAN.
  Variables (M : nat) (tiles : list (nat * nat)) (As : list dist_csr) (dflt : dist_csr).
  Notation P := (length tiles).
  Hypothesis T : tiling 0 M tiles.
  Hypothesis LA : length As = P.
  Hypothesis D : forall r A, nth_error As r = Some A -> dist_part M tiles r A.
  Notation Ar r := (nth r As dflt).
  Notation tl r := (nth r tiles (0, 0)).
  Notation R r s := (demand (Ar r) (tl s)).

  Lemma part r : r < P -> dist_part M tiles r (Ar r).
  Proof. intros H. apply D. apply nth_error_nth'. lia. Qed.
  Lemma tl_eq r : r < P -> nth_error tiles r = Some (tl r).
  Proof. intros H. apply nth_error_nth'. auto. Qed.
  Lemma tl_bounds r : r < P -> fst (tl r) <= snd (tl r) <= M.
  Proof.
    intros H. pose proof (tl_eq r H) as E. destruct (tl r) as [lo hi] eqn:F.
    destruct (tiling_nth _ _ _ T _ _ _ E) as (L0 & L1 & L2). cbn. lia.
  Qed.

  Lemma R_self r : r < P -> R r r = [].
  Proof.
    intros H. unfold demand. destruct (part r H) as (_ & _ & lo & hi & E & _ & _ & _ & HB).
    rewrite (tl_eq r H) in E. assert (tl r = (lo, hi)) as F by congruence. rewrite F. cbn [fst snd].
    destruct (d_off (Ar r)) as [B|]; auto. destruct (HB B eq_refl) as (_ & _ & _ & _ & HC).
    assert (X : forall l, (forall c, In c l -> lo <= c < hi) -> filter (fun c => existsb (Nat.eqb c) (colind B)) l = []).
    { induction l as [|c l IH]; intros Hl; auto. cbn [filter].
      destruct (existsb (Nat.eqb c) (colind B)) eqn:E1.
      - apply existsb_exists in E1. destruct E1 as (y & Hy & Ey). apply Nat.eqb_eq in Ey. subst y.
        specialize (HC c Hy). specialize (Hl c (or_introl eq_refl)). lia.
      - apply IH. intros; apply Hl; right; auto. }
    apply X. intros c Hc. apply in_seq in Hc. lia.
  Qed.
  Lemma R_In r s c : s < P -> In c (R r s) -> fst (tl s) <= c < snd (tl s).
  Proof.
    intros H. unfold demand. destruct (d_off (Ar r)); [|intros []]. intros Hc. apply filter_In in Hc.
    destruct Hc as [Hc _]. apply in_seq in Hc. pose proof (tl_bounds s H). lia.
  Qed.
  (* every stored column of the off-diagonal tile is in the demand *)
  Lemma R_covers r B c : r < P -> d_off (Ar r) = Some B -> In c (colind B) ->
    In c (concat (map (fun s => R r s) (seq 0 P))).
  Proof.
    intros Hr EB Hc. destruct (part r Hr) as (_ & _ & lo & hi & E & _ & _ & _ & HB).
    destruct (HB B EB) as (WB & _ & nB & iB & _).
    assert (Lc : c < M). { destruct WB as (_ & _ & _ & _ & _ & W). specialize (W c Hc). lia. }
    destruct (tiling_owner _ _ _ T c ltac:(lia)) as (s & x & y & Es & Hs & _).
    apply in_concat. exists (R r s).
    assert (Ls : s < P) by (apply nth_error_Some; congruence). split.
    - apply in_map_iff. exists s. split; auto. apply in_seq. lia.
    - unfold demand. rewrite EB. apply filter_In. rewrite (tl_eq s Ls) in Es. assert (tl s = (x, y)) as F by congruence.
      rewrite F. cbn [fst snd]. split; [apply in_seq; lia|]. apply existsb_exists. exists c. split; auto. apply Nat.eqb_refl.
  Qed.

  Lemma recv_indices_ok dbg r : r < P ->
    recv_indices_of dbg P r (Ar r) = Ok (map (fun s => R r s) (seq 0 P)).
  Proof.
    intros Hr. unfold recv_indices_of. destruct (part r Hr) as (_ & ET & lo & hi & E & _ & _ & _ & HB).
    rewrite ET, slice_ok by lia. rewrite Nat.sub_0_r. cbn [skipn]. rewrite firstn_all.
    assert (G : (do uniq <- match d_off (Ar r) with
       | Some B => if dbg && negb (csr_ind B =? 0) then Err AssertFail else Ok (std_set (colind B))
       | None => Ok [] end; Ok (split_by_tiles uniq tiles)) = Ok (map (fun s => R r s) (seq 0 P))).
    { unfold demand. destruct (d_off (Ar r)) as [B|].
      - destruct (HB B eq_refl) as (WB & _ & nB & iB & _). rewrite iB, Nat.eqb_refl, andb_false_r. cbn [bind]. f_equal.
        rewrite (split_by_tiles_ok _ _ _ _ T); [|apply std_set_sorted|lia].
        rewrite (list_as_map tiles (0, 0)) at 1. rewrite map_map. apply map_ext_in. intros s Hs.
        apply sorted_unique.
        + apply filter_sorted, std_set_sorted.
        + apply filter_sorted, seq_sorted.
        + intros c. rewrite !filter_In, std_set_In, in_seq. rewrite andb_true_iff, Nat.leb_le, Nat.ltb_lt, existsb_exists. split.
          * intros (A1 & A2 & A3). split; [lia|]. exists c. split; auto. apply Nat.eqb_refl.
          * intros (A1 & y & A2 & A3). apply Nat.eqb_eq in A3. subst y. split; auto. lia.
      - cbn [bind]. f_equal. clear. generalize 0 as a. induction tiles as [|[lo hi] l IH]; intros a; auto.
        cbn [split_by_tiles lower_bound_split length seq map]. f_equal. apply IH. }
    destruct (match d_off (Ar r) with Some _ => _ | None => _ end) as [uniq|e]; cbn [bind] in *; [|discriminate].
    assert (EQ : split_by_tiles uniq tiles = map (fun s => R r s) (seq 0 P)) by congruence. rewrite EQ.
    rewrite (at_ok _ r []) by (rewrite map_length, seq_length; auto). cbn [bind].
    rewrite nth_map_seq by auto. rewrite R_self by auto. cbn [length Nat.eqb negb]. rewrite andb_false_r. reflexivity.
  Qed.

  Definition plan (r : nat) : spmv_info :=
    mk_info (map (fun c => c - fst (tl r)) (concat (map (fun i => R i r) (seq 0 P))))
      (concat (map (fun s => R r s) (seq 0 P)))
      (starts 0 (map Z.of_nat (map (fun i => length (R i r)) (seq 0 P))))
      (starts 0 (map Z.of_nat (map (fun s => length (R r s)) (seq 0 P))))
      (map (fun i => length (R i r)) (seq 0 P))
      (map (fun s => length (R r s)) (seq 0 P)).

  Hypothesis HR : forall r A, nth_error As r = Some A -> (Z.of_nat (received tiles A) < 2 ^ 31)%Z.
  Hypothesis HS : forall r t, nth_error tiles r = Some t -> (Z.of_nat (sent As t) < 2 ^ 31)%Z.

  Lemma received_eq r : received tiles (Ar r) = list_sum (map (fun s => length (R r s)) (seq 0 P)).
  Proof. unfold received. f_equal. rewrite (list_as_map tiles (0, 0)) at 1. rewrite map_map. reflexivity. Qed.
  Lemma sent_eq r : sent As (tl r) = list_sum (map (fun i => length (R i r)) (seq 0 P)).
  Proof. unfold sent. f_equal. rewrite (list_as_map As dflt) at 1. rewrite map_map, LA. reflexivity. Qed.

  Lemma generate_ok dbg : generate_spmv_comm_info dbg As = Ok (map plan (seq 0 P)).
  Proof.
    unfold generate_spmv_comm_info. rewrite LA. rewrite (combine_seq0 As dflt P LA).
    assert (E1 : mapM (fun rA : nat * dist_csr => recv_indices_of dbg P (fst rA) (snd rA)) (map (fun r => (r, Ar r)) (seq 0 P)) =
      Ok (map (fun r => map (fun s => R r s) (seq 0 P)) (seq 0 P))).
    { rewrite (mapM_ok _ (fun rA => map (fun s => demand (snd rA) (tl s)) (seq 0 P))).
      - rewrite map_map. reflexivity.
      - intros x Hx. apply in_map_iff in Hx. destruct Hx as (r & <- & Hr). apply in_seq in Hr. cbn [fst snd].
        apply recv_indices_ok. lia. }
    rewrite E1. cbn [bind].
    assert (E2 : mapM (fun rA : nat * dist_csr =>
        do l <- mapM (fun i => if i =? fst rA then Ok (i, 0)
            else do c <- at_ (concat (map (map (@length nat)) (map (fun r => map (fun s => R r s) (seq 0 P)) (seq 0 P)))) (fst rA + i * P); Ok (i, c))
           (seq 0 P);
        Ok (filter (fun ic => negb (snd ic =? 0)) l)) (map (fun r => (r, Ar r)) (seq 0 P)) =
      Ok (map (fun r => filter (fun ic => negb (snd ic =? 0)) (map (fun i => (i, length (R i r))) (seq 0 P))) (seq 0 P))).
    { rewrite (mapM_ok _ (fun rA => filter (fun ic => negb (snd ic =? 0)) (map (fun i => (i, length (R i (fst rA)))) (seq 0 P)))).
      - rewrite map_map. reflexivity.
      - intros x Hx. apply in_map_iff in Hx. destruct Hx as (r & <- & Hr). apply in_seq in Hr. cbn [fst snd].
        rewrite (mapM_seq _ (fun i => (i, length (R i r)))); [reflexivity|].
        intros i Hi. destruct (Nat.eqb_spec i r) as [->|N].
        + rewrite R_self by lia. reflexivity.
        + rewrite map_map. rewrite (at_nth_error _ _ (length (R i r))); [reflexivity|].
          rewrite (concat_nth (fun x => map (@length nat) (map (fun s => R x s) (seq 0 P))) P P); auto; try lia.
          * rewrite map_map. rewrite (nth_error_nth' _ 0) by (rewrite map_length, seq_length; lia).
            rewrite nth_map_seq by lia. reflexivity.
          * intros j _. rewrite !map_length, seq_length. reflexivity. }
    rewrite E2. cbn [bind]. clear E1 E2.
    assert (E3 : map (fun by_rank : list (list nat) => filter (fun ic => negb (length (snd ic) =? 0)) (combine (seq 0 (length by_rank)) by_rank))
          (map (fun r => map (fun s => R r s) (seq 0 P)) (seq 0 P)) =
        map (fun s => filter (fun ic => negb (length (snd ic) =? 0)) (map (fun d => (d, R s d)) (seq 0 P))) (seq 0 P)).
    { rewrite map_map. apply map_ext. intros s. rewrite map_length, seq_length. f_equal.
      rewrite <- (map_id (seq 0 P)) at 1. rewrite combine_maps. reflexivity. }
    rewrite E3. rewrite (exchange_ok P (fun s d => R s d)). cbn [bind]. clear E3.
    rewrite !combine_maps.
    rewrite (mapM_ok _ (fun t => plan (fst (fst (fst t))))).
    { rewrite map_map. reflexivity. }
    intros x Hx. apply in_map_iff in Hx. destruct Hx as (r & <- & Hr). apply in_seq in Hr. cbn [fst snd].
    assert (Lr : r < P) by lia.
    assert (E4 : map (fun i => match find (fun p => fst (fst p) =? i)
      (combine (filter (fun ic => negb (snd ic =? 0)) (map (fun s => (s, length (R s r))) (seq 0 P)))
               (filter (fun x => negb (length x =? 0)) (map (fun s => R s r) (seq 0 P)))) with
      | Some p => snd p | None => [] end) (seq 0 P) = map (fun i => R i r) (seq 0 P)).
    { apply map_ext_in. intros i Hi. apply (find_box (fun s => R s r)); auto. apply seq_NoDup. }
    rewrite E4. rewrite !map_map.
    rewrite <- (map_map (fun i => length (R i r)) Z.of_nat), <- (map_map (fun i => length (R r i)) Z.of_nat).
    rewrite scan_ok. 2:{ rewrite <- sent_eq. apply (HS r). apply tl_eq. auto. }
    cbn [bind]. rewrite scan_ok. 2:{ rewrite <- received_eq. apply (HR r). apply nth_error_nth'. lia. }
    cbn [bind]. destruct (part r Lr) as (_ & ET & _). rewrite ET. rewrite (at_ok _ r (0, 0)) by auto. cbn [bind].
    rewrite (mapM_ok _ (fun c => c - fst (tl r))).
    - cbn [bind]. unfold plan. reflexivity.
    - intros c Hc. apply in_concat in Hc. destruct Hc as (l & Hl & Hc). apply in_map_iff in Hl.
      destruct Hl as (i & <- & Hi). apply minus_ok. apply R_In in Hc; auto. lia.
  Qed.
End PLAN.

(** Proofs about the collective helpers. *)
From Coq Require Import Sorting.Permutation Sorting.Sorted.
From Verif Require Import Base Nondet Asci Constraint ConstraintSearch3 Collective CollectiveSpec.
Local Open Scope nat_scope.

Lemma to_int_id z : (- 2 ^ 31 <= z < 2 ^ 31)%Z -> to_int z = z.
Proof. intros H. unfold to_int. rewrite Z.mod_small; lia. Qed.
Lemma to_size_id z : (0 <= z < 2 ^ 64)%Z -> to_size z = z.
Proof. intros H. unfold to_size. apply Z.mod_small. lia. Qed.
Lemma to_integral_id t z : (0 <= z < 2 ^ 31)%Z -> to_integral t z = z.
Proof. intros H. destruct t; [apply to_int_id|apply to_size_id]; lia. Qed.
Lemma int_add_ok t a b : (0 <= a)%Z -> (0 <= b)%Z -> (a + b < 2 ^ 31)%Z -> int_add t a b = Ok (a + b)%Z.
Proof.
  intros. destruct t; cbn [int_add].
  - destruct (Z.leb_spec (- 2 ^ 31) (a + b)); [|lia]. destruct (Z.ltb_spec (a + b) (2 ^ 31)); [|lia]. reflexivity.
  - rewrite (to_size_id a), (to_size_id b), to_size_id by lia. reflexivity.
Qed.

Definition sumz (l : list Z) : Z := fold_right Z.add 0%Z l.
Lemma sumz_nonneg l : Forall (fun x => (0 <= x)%Z) l -> (0 <= sumz l)%Z.
Proof. induction 1; cbn [sumz fold_right]; try lia. unfold sumz in IHForall. lia. Qed.

Lemma accumulate_z_ok t l : forall acc, (0 <= acc)%Z -> Forall (fun x => (0 <= x)%Z) l ->
  (acc + sumz l < 2 ^ 31)%Z -> accumulate_z t acc l = Ok (acc + sumz l)%Z.
Proof.
  induction l as [|x r IH]; intros acc Ha F H; cbn [accumulate_z sumz fold_right] in *.
  - f_equal. lia.
  - inversion F as [|? ? F1 F2]; subst. pose proof (sumz_nonneg r F2) as Hs. unfold sumz in *.
    rewrite int_add_ok by lia. cbn [bind]. rewrite IH by (auto; lia). f_equal. lia.
Qed.
Fixpoint starts (acc : Z) (l : list Z) : list Z :=
  match l with [] => [] | x :: r => acc :: starts (acc + x) r end.
Lemma exclusive_scan_z_ok t l : forall acc, (0 <= acc)%Z -> Forall (fun x => (0 <= x)%Z) l ->
  (acc + sumz l < 2 ^ 31)%Z -> exclusive_scan_z t acc l = Ok (starts acc l).
Proof.
  induction l as [|x r IH]; intros acc Ha F H; cbn [exclusive_scan_z sumz fold_right starts] in *.
  - reflexivity.
  - inversion F as [|? ? F1 F2]; subst. pose proof (sumz_nonneg r F2) as Hs. unfold sumz in *.
    rewrite int_add_ok by lia. cbn [bind]. rewrite (to_int_id (acc + x)) by lia. rewrite IH by (auto; lia).
    cbn [bind]. rewrite to_integral_id by lia. reflexivity.
Qed.
Lemma tgs_ok t l : Forall (fun x => (0 <= x)%Z) l -> (sumz l < 2 ^ 31)%Z ->
  total_gather_and_exclusive_scan t l = Ok (sumz l, l, starts 0 l).
Proof.
  intros F H. unfold total_gather_and_exclusive_scan.
  rewrite accumulate_z_ok by (auto; lia). cbn [bind].
  rewrite exclusive_scan_z_ok by (auto; lia). cbn [bind]. reflexivity.
Qed.
Lemma starts_nth l : forall acc r, r < length l -> nth_error (starts acc l) r = Some (acc + sumz (firstn r l))%Z.
Proof.
  induction l as [|x l IH]; cbn [length]; intros acc r Hr; [lia|].
  destruct r as [|r]; cbn [starts nth_error firstn sumz fold_right].
  - f_equal. lia.
  - rewrite IH by lia. f_equal. unfold sumz. lia.
Qed.
Lemma starts_length l : forall acc, length (starts acc l) = length l.
Proof. induction l; intros; cbn [starts length]; auto. Qed.

Definition lens {A} (data : list (list A)) : list Z := map (fun d => Z.of_nat (length d)) data.
Lemma lens_sum {A} (data : list (list A)) : sumz (lens data) = Z.of_nat (length (concat data)).
Proof.
  induction data as [|d r IH]; auto. cbn [lens map sumz fold_right concat]. rewrite app_length.
  unfold lens, sumz in IH. rewrite IH. lia.
Qed.
Lemma lens_nonneg {A} (data : list (list A)) : Forall (fun x => (0 <= x)%Z) (lens data).
Proof. unfold lens. apply Forall_forall. intros x Hx. apply in_map_iff in Hx. destruct Hx as (d & <- & _). lia. Qed.
Lemma starts_ge l : forall acc, Forall (fun x => (0 <= x)%Z) l -> Forall (fun x => (acc <= x)%Z) (starts acc l).
Proof.
  induction l as [|x r IH]; intros acc F; cbn [starts]; constructor; try lia.
  inversion F as [|? ? F1 F2]; subst. eapply Forall_impl; [|apply IH, F2]. cbn beta. intros. lia.
Qed.

Lemma upper_bound_owner {A} (data : list (list A)) : forall acc idx,
  (acc <= idx)%Z -> (idx < acc + sumz (lens data))%Z ->
  exists o d st, upper_bound (starts acc (lens data)) idx = Ok (S o) /\
    nth_error data o = Some d /\ nth_error (starts acc (lens data)) o = Some st /\
    (st <= idx < st + Z.of_nat (length d))%Z.
Proof.
  induction data as [|d r IH]; intros acc idx H1 H2; cbn [lens map sumz fold_right starts upper_bound] in *; [lia|].
  destruct (Z.ltb_spec idx acc); [lia|]. fold (lens r) in *. fold (sumz (lens r)) in *.
  destruct (Z.le_gt_cases (acc + Z.of_nat (length d)) idx) as [K|K].
  - destruct (IH (acc + Z.of_nat (length d))%Z idx K ltac:(lia)) as (o & d' & st & E & X & Y & Zz).
    rewrite E. cbn [bind]. exists (S o), d', st. auto.
  - exists 0, d, acc. split; [|cbn; auto].
    assert (E : upper_bound (starts (acc + Z.of_nat (length d)) (lens r)) idx = Ok 0).
    { pose proof (starts_ge (lens r) (acc + Z.of_nat (length d))%Z (lens_nonneg r)) as F.
      destruct (starts (acc + Z.of_nat (length d)) (lens r)) as [|y t]; cbn [upper_bound]; auto.
      inversion F as [|? ? F1 F2]; subst. destruct (Z.ltb_spec idx y); [|lia].
      assert (forallb (fun z => (idx <? z)%Z) t = true) as ->; auto.
      apply forallb_forall. rewrite Forall_forall in F2. intros z Hz. specialize (F2 z Hz). apply Z.ltb_lt. lia. }
    rewrite E. reflexivity.
Qed.

Lemma set_range_app {A} (a b new : list A) : length new <= length b ->
  set_range (length a) new (a ++ b) = a ++ new ++ skipn (length new) b.
Proof. intros H. induction a as [|x a IH]; cbn [length set_range app]; auto. f_equal. exact IH. Qed.
Lemma set_range_length {A} (new : list A) : forall off old, off + length new <= length old ->
  length (set_range off new old) = length old.
Proof.
  induction off as [|o IH]; intros old H.
  - replace (set_range 0 new old) with (new ++ skipn (length new) old) by (destruct old; reflexivity).
    rewrite app_length, skipn_length. lia.
  - destruct old as [|x r]; cbn [set_range length] in *; auto. rewrite IH; lia.
Qed.
Lemma set_range_nth {A} (new : list A) (dflt : A) : forall off old j, off + length new <= length old ->
  nth j (set_range off new old) dflt =
  if (off <=? j) && (j <? off + length new) then nth (j - off) new dflt else nth j old dflt.
Proof.
  induction off as [|o IH]; intros old j H; cbn [set_range] in *.
  - replace (match old with _ => new ++ skipn (length new) old end) with (new ++ skipn (length new) old)
      by (destruct old; reflexivity).
    cbn [Nat.leb andb Nat.add]. rewrite Nat.sub_0_r. destruct (Nat.ltb_spec j (length new)).
    + apply app_nth1. auto.
    + rewrite app_nth2 by auto. rewrite <- (firstn_skipn (length new) old) at 2.
      assert (L : length (firstn (length new) old) = length new) by (rewrite firstn_length; lia).
      rewrite app_nth2 by lia. rewrite L. reflexivity.
  - destruct old as [|x r]; cbn [length] in H; [lia|]. destruct j as [|j]; cbn [nth]; auto.
    rewrite IH by lia. reflexivity.
Qed.

Lemma allgatherv_ok {A} (data : list (list A)) : forall (done rest : list A) acc,
  acc = Z.of_nat (length done) -> length rest = length (concat data) ->
  fold_left (fun r (bd : list A * Z) => do buf <- r;
      if ((0 <=? snd bd) && (snd bd + Z.of_nat (length (fst bd)) <=? Z.of_nat (length buf)))%Z
      then Ok (set_range (Z.to_nat (snd bd)) (fst bd) buf) else Err UB)
    (combine data (starts acc (lens data))) (Ok (done ++ rest)) = Ok (done ++ concat data).
Proof.
  induction data as [|d r IH]; intros done rest acc -> H; cbn [lens map starts combine fold_left concat] in *.
  - cbn [length] in H. destruct rest; [|discriminate]. reflexivity.
  - rewrite app_length in H. cbn [fst snd bind]. fold (lens r).
    destruct (Z.leb_spec 0 (Z.of_nat (length done))); [|lia].
    rewrite !app_length. cbn [andb].
    destruct (Z.leb_spec (Z.of_nat (length done) + Z.of_nat (length d)) (Z.of_nat (length done + length rest))); [|lia].
    rewrite Nat2Z.id. rewrite set_range_app by lia. rewrite (app_assoc done d).
    rewrite (IH (done ++ d) (skipn (length d) rest)).
    + rewrite <- app_assoc. reflexivity.
    + rewrite app_length. lia.
    + rewrite skipn_length. lia.
Qed.
Lemma MPI_Allgatherv_ok {A} (data : list (list A)) (recv : list A) :
  length recv = length (concat data) ->
  MPI_Allgatherv data (starts 0 (lens data)) recv = Ok (concat data).
Proof. intros H. unfold MPI_Allgatherv. apply (allgatherv_ok data [] recv 0%Z); auto. Qed.

(** ** reductions *)
Lemma mapM_slice {A} off n (bufs : list (list A)) : Forall (fun b => off + n <= length b) bufs ->
  mapM (slice off n) bufs = Ok (map (fun b => firstn n (skipn off b)) bufs).
Proof.
  intros F. apply mapM_ok. rewrite Forall_forall in F. intros b Hb. unfold slice.
  apply F, Nat.leb_le in Hb. rewrite Hb. reflexivity.
Qed.
(** what the reduction of the first [n] elements should give *)
Definition reduced {A} (op : list A -> A) (dflt : A) (n : nat) (send : list (list A)) (old : list A) : list A :=
  map (fun j => op (map (fun b => nth j b dflt) send)) (seq 0 n) ++ skipn n old.

Lemma skip_skip {A} n m (l : list A) : skipn n (skipn m l) = skipn (n + m) l.
Proof.
  revert m. induction l as [|x r IH]; intros m; [rewrite !skipn_nil; auto|].
  destruct m; cbn [skipn]; [rewrite Nat.add_0_r; auto|]. rewrite IH, Nat.add_succ_r. reflexivity.
Qed.
Lemma nth_slice {A} (dflt : A) off n (b : list A) j : j < n -> nth j (firstn n (skipn off b)) dflt = nth (off + j) b dflt.
Proof.
  intros H. rewrite <- (firstn_skipn off b) at 2.
  destruct (le_lt_dec off (length b)) as [L|L].
  - rewrite app_nth2 by (rewrite firstn_length; lia). rewrite firstn_length, Nat.min_l by lia.
    replace (off + j - off) with j by lia. revert H. generalize (skipn off b). clear. intros b. revert n j.
    induction b as [|x r IH]; intros n j H; destruct n; try lia; destruct j; cbn [firstn nth]; auto. apply IH. lia.
  - rewrite (skipn_all2 b) by lia. rewrite firstn_nil. rewrite app_nil_r.
    rewrite !nth_overflow; auto; [rewrite firstn_length; lia|cbn; lia].
Qed.

Lemma allreduce_step {A} (op : list A -> A) dflt off n send recv :
  Forall (fun b => off + n <= length b) send -> Forall (fun b => off + n <= length b) recv ->
  MPI_Allreduce op dflt off n send (map (reduced op dflt off send) recv) =
  Ok (map (reduced op dflt (off + n) send) recv).
Proof.
  intros Fs Fr. unfold MPI_Allreduce. rewrite mapM_slice by auto. cbn [bind].
  rewrite mapM_slice.
  2:{ rewrite Forall_forall in *. intros b Hb. apply in_map_iff in Hb. destruct Hb as (b0 & <- & Hb).
      specialize (Fr b0 Hb). unfold reduced. rewrite app_length, map_length, seq_length, skipn_length. lia. }
  cbn [bind]. f_equal. rewrite map_map. apply map_ext_in. intros b Hb.
  rewrite Forall_forall in Fr. specialize (Fr b Hb).
  unfold reduced at 1.
  set (P := map (fun j => op (map (fun b0 => nth j b0 dflt) send)) (seq 0 off)).
  assert (LP : length P = off) by (unfold P; rewrite map_length, seq_length; auto).
  set (R := reduce_elems op dflt n (map (fun b0 => firstn n (skipn off b0)) send)).
  assert (LR : length R = n) by (unfold R, reduce_elems; rewrite map_length, seq_length; auto).
  rewrite <- LP at 1. rewrite set_range_app by (rewrite skipn_length; lia).
  unfold reduced. rewrite seq_app, map_app, <- app_assoc. f_equal. f_equal.
  - unfold R, reduce_elems. cbn [Nat.add]. replace (seq off n) with (seq (off + 0) n) by (f_equal; lia).
    assert (S0 : forall a m, seq (off + a) m = map (fun j => off + j) (seq a m)).
    { intros a m. revert a. induction m as [|m IHm]; intros a; cbn [seq map]; auto.
      f_equal. rewrite <- IHm. f_equal. lia. }
    rewrite S0, map_map. apply map_ext_in. intros j Hj. apply in_seq in Hj. f_equal. rewrite map_map.
    apply map_ext. intros b0. apply nth_slice. lia.
  - rewrite LR. rewrite skip_skip. f_equal. lia.
Qed.

Lemma allreduce_chunked_ok {A} (op : list A -> A) dflt refuse intmax count send recv :
  0 < intmax -> (refuse = true -> count < intmax) ->
  Forall (fun b => count <= length b) send -> Forall (fun b => count <= length b) recv ->
  allreduce_chunked refuse op dflt intmax count send recv = Ok (map (reduced op dflt count send) recv).
Proof.
  intros Hi Hr Fs Fr. unfold allreduce_chunked.
  assert (E : refuse && negb (count / intmax =? 0) = false).
  { destruct refuse; auto. rewrite Nat.div_small by auto. reflexivity. }
  rewrite E. clear E.
  pose proof (Nat.div_mod count intmax ltac:(lia)) as DM.
  assert (Lc : forall m, m <= count / intmax ->
    fold_left (fun r i => do recv0 <- r; MPI_Allreduce op dflt (i * intmax) intmax send recv0)
      (seq 0 m) (Ok recv) = Ok (map (reduced op dflt (m * intmax) send) recv)).
  { induction m as [|m IH]; intros Hm.
    - cbn [seq fold_left Nat.mul]. f_equal. rewrite <- map_id at 1. apply map_ext. intros b. reflexivity.
    - rewrite seq_S, fold_left_app, IH by lia. cbn [fold_left bind Nat.add].
      rewrite allreduce_step.
      + f_equal. f_equal. f_equal. lia.
      + eapply Forall_impl; [|apply Fs]. cbn beta. intros b Hb. nia.
      + eapply Forall_impl; [|apply Fr]. cbn beta. intros b Hb. nia. }
  rewrite Lc by lia. cbn [bind].
  destruct (Nat.eqb_spec (count mod intmax) 0) as [Z0|NZ].
  - f_equal. f_equal. f_equal. lia.
  - rewrite allreduce_step.
    + f_equal. f_equal. f_equal. lia.
    + eapply Forall_impl; [|apply Fs]. cbn beta. intros b Hb. lia.
    + eapply Forall_impl; [|apply Fr]. cbn beta. intros b Hb. lia.
Qed.
Lemma allreduce_chunked_refuses {A} (op : list A -> A) dflt intmax count send recv :
  0 < intmax -> intmax <= count -> allreduce_chunked true op dflt intmax count send recv = Err Throw.
Proof.
  intros Hi H. unfold allreduce_chunked.
  assert (1 <= count / intmax) by (apply Nat.div_le_lower_bound; lia).
  destruct (count / intmax) as [|c]; [lia|]. reflexivity.
Qed.

Lemma int_max_pos : 1 < Z.to_nat INT_MAX.
Proof. apply (proj1 (Z2Nat.inj_lt 1 INT_MAX ltac:(lia) ltac:(unfold INT_MAX; lia))). unfold INT_MAX. lia. Qed.
Lemma int_max_val : INT_MAX = (2 ^ 31 - 1)%Z.
Proof. reflexivity. Qed.
Opaque INT_MAX.

Lemma allreduce_one_ok {A} (op : list A -> A) dflt d :
  allreduce_one op dflt d = Ok (map (fun _ => op d) d).
Proof.
  unfold allreduce_one, allreduce. pose proof int_max_pos.
  rewrite allreduce_chunked_ok.
  - cbn [bind]. rewrite !map_map. f_equal. apply map_ext. intros _. unfold reduced. cbn [seq map app nth].
    f_equal. rewrite map_map. cbn [nth]. apply map_id.
  - lia.
  - auto.
  - apply Forall_forall. intros b Hb. apply in_map_iff in Hb. destruct Hb as (x & <- & _). cbn. lia.
  - apply Forall_forall. intros b Hb. apply in_map_iff in Hb. destruct Hb as (x & <- & _). cbn. lia.
Qed.

(** bcast *)
Definition bcasted {A} (n : nat) (src old : list A) : list A := firstn n src ++ skipn n old.
Lemma bcast_step {A} off n root (src : list A) bufs :
  nth_error bufs root = Some src -> Forall (fun b => off + n <= length b) bufs ->
  MPI_Bcast off n root (map (bcasted off src) bufs) = Ok (map (bcasted (off + n) src) bufs).
Proof.
  intros Hr F. unfold MPI_Bcast, at_. rewrite (map_nth_error _ _ _ Hr). cbn [bind].
  assert (E : bcasted off src src = src) by apply firstn_skipn. rewrite E.
  assert (Ls : off + n <= length src). { rewrite Forall_forall in F. apply F. eapply nth_error_In; eauto. }
  unfold slice at 1. destruct (Nat.leb_spec (off + n) (length src)); [|lia]. cbn [bind].
  rewrite mapM_slice.
  2:{ rewrite Forall_forall in *. intros b Hb. apply in_map_iff in Hb. destruct Hb as (b0 & <- & Hb).
      specialize (F b0 Hb). unfold bcasted. rewrite app_length, firstn_length, skipn_length. lia. }
  cbn [bind]. f_equal. rewrite map_map. apply map_ext_in. intros b Hb.
  rewrite Forall_forall in F. specialize (F b Hb). unfold bcasted at 1.
  assert (LP : length (firstn off src) = off) by (rewrite firstn_length; lia).
  assert (LN : length (firstn n (skipn off src)) = n) by (rewrite firstn_length, skipn_length; lia).
  rewrite <- LP at 1. rewrite set_range_app by (rewrite LN, skipn_length; lia). rewrite LN.
  unfold bcasted. rewrite app_assoc. f_equal.
  - rewrite <- (firstn_skipn off src) at 3. rewrite firstn_app, LP. rewrite firstn_firstn, Nat.min_r by lia.
    f_equal. f_equal. lia.
  - rewrite skip_skip. f_equal. lia.
Qed.
Lemma bcast_chunked_ok {A} refuse intmax count root (src : list A) bufs :
  0 < intmax -> (refuse = true -> count < intmax) ->
  nth_error bufs root = Some src -> Forall (fun b => count <= length b) bufs ->
  bcast_chunked refuse intmax count root bufs = Ok (map (bcasted count src) bufs).
Proof.
  intros Hi Hr Hs F. unfold bcast_chunked.
  assert (E : refuse && negb (count / intmax =? 0) = false).
  { destruct refuse; auto. rewrite Nat.div_small by auto. reflexivity. }
  rewrite E. clear E.
  pose proof (Nat.div_mod count intmax ltac:(lia)) as DM.
  assert (Lc : forall m, m <= count / intmax ->
    fold_left (fun r i => do b <- r; MPI_Bcast (i * intmax) intmax root b)
      (seq 0 m) (Ok bufs) = Ok (map (bcasted (m * intmax) src) bufs)).
  { induction m as [|m IH]; intros Hm.
    - cbn [seq fold_left Nat.mul]. f_equal. rewrite <- map_id at 1. apply map_ext. intros b. reflexivity.
    - rewrite seq_S, fold_left_app, IH by lia. cbn [fold_left bind Nat.add].
      rewrite bcast_step; auto.
      + f_equal. f_equal. f_equal. lia.
      + eapply Forall_impl; [|apply F]. cbn beta. intros b Hb. nia. }
  rewrite Lc by lia. cbn [bind].
  destruct (Nat.eqb_spec (count mod intmax) 0) as [Z0|NZ].
  - f_equal. f_equal. f_equal. lia.
  - rewrite bcast_step; auto.
    + f_equal. f_equal. f_equal. lia.
    + eapply Forall_impl; [|apply F]. cbn beta. intros b Hb. lia.
Qed.
Lemma bcast_chunked_refuses {A} intmax count root (bufs : list (list A)) :
  0 < intmax -> intmax <= count -> bcast_chunked true intmax count root bufs = Err Throw.
Proof.
  intros Hi H. unfold bcast_chunked.
  assert (1 <= count / intmax) by (apply Nat.div_le_lower_bound; lia).
  destruct (count / intmax) as [|c]; [lia|]. reflexivity.
Qed.

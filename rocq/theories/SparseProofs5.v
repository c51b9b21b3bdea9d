(** Compressed-column to compressed-row conversion. *)
From Coq Require Import QArith Qcanon Sorting.Permutation Sorting.Sorted.
From Verif Require Import Base SDProofs4 Sums Nondet Ham Asci Mem MemProofs Spmv SparseSpec CsrView SpmvSpec CsrProofs SpmvProofs PSpmvProofs2 PSpmvProofs3 CooProofs Sparse ConvSpec SparseProofs1 SparseProofs2 SparseProofs3 SparseProofs4.
Local Open Scope nat_scope.

Lemma bucket_app T U c : bucket (T ++ U) c = bucket T c ++ bucket U c.
Proof. unfold bucket. rewrite filter_app, map_app. reflexivity. Qed.

Lemma put_cell {X} (L : list (list X)) c t (x : X) : c < length L -> t < length (nth c L []) ->
  put (concat L) (offset L c + t) x = Ok (concat (upd L c (upd (nth c L []) t x))).
Proof.
  intros Hc Ht.
  assert (SP : L = firstn c L ++ nth c L [] :: skipn (S c) L).
  { clear Ht. revert c Hc. induction L as [|r L IH]; intros [|i] Hi; cbn in *; try lia; auto. f_equal. apply IH. lia. }
  assert (SP' : forall y, upd L c y = firstn c L ++ y :: skipn (S c) L).
  { intros y. clear Ht SP. revert c Hc. induction L as [|r L IH]; intros [|i] Hi; cbn in *; try lia; auto. f_equal. apply IH. lia. }
  rewrite SP'. rewrite SP at 1. rewrite !concat_app. cbn [concat].
  unfold offset. rewrite firstn_map, <- concat_length.
  generalize (concat (firstn c L)) as a. generalize (concat (skipn (S c) L)) as e. intros e a.
  rewrite put_ok by (rewrite !app_length; lia). f_equal.
  revert Ht. generalize (nth c L []) as b. intros b Hb. clear -Hb. induction a as [|y a IH]; cbn.
  - revert t Hb. induction b as [|y b IH]; intros [|t] Hb; cbn in *; try lia; auto. f_equal. apply IH. lia.
  - f_equal. auto.
Qed.
Lemma upd_mid {X} (a : list X) y r x : upd (a ++ y :: r) (length a) x = a ++ x :: r.
Proof. induction a; cbn; auto. f_equal. auto. Qed.

Lemma firstn_seq k m : k <= m -> firstn k (seq 0 m) = seq 0 k.
Proof.
  intros H. apply (nth_ext' _ _ 0); [rewrite firstn_length, !seq_length; lia|]. intros q Hq. rewrite firstn_length, seq_length in Hq.
  rewrite nth_firstn, !seq_nth by lia. reflexivity.
Qed.

Section CSC.
  Context (ind M N : nat) (Ap Ai : list nat) (Az : list Qc) (H : wf_compressed ind M N Ap Ai Az).
  Let line_ := line ind Ap Ai Az.
  Let G := fun i => map (fun cv : nat * Qc => (fst cv, i, snd cv)) (line_ i).
  Definition csc_triples : list (nat * nat * Qc) :=
    concat (map (fun i => map (fun cv : nat * Qc => (fst cv, i, snd cv)) (line ind Ap Ai Az i)) (seq 0 M)).
  Let T := csc_triples.
  Let tot c := length (bucket T c).
  Let off k := list_sum (map tot (seq 0 k)).

  Lemma T_keys : map (fun t => fst (fst t)) T = map (fun c => c - ind) Ai.
  Proof.
    assert (E : map (fun t => fst (fst t)) T = map fst (concat (map line_ (seq 0 M)))).
    { unfold T, csc_triples. rewrite !concat_map, !map_map. f_equal. apply map_ext. intros i. rewrite map_map. reflexivity. }
    rewrite E. unfold line_. rewrite (lines_all H). destruct H as (_ & _ & _ & _ & V & _).
    clear E. revert V. clear. revert Az. induction Ai as [|a l IH]; intros [|z zs] V; cbn in *; try lia; auto. f_equal. apply IH. lia.
  Qed.
  Lemma T_length : length T = length Ai.
  Proof. rewrite <- (map_length (fun t => fst (fst t))), T_keys, map_length. reflexivity. Qed.
  Lemma T_bound t : In t T -> fst (fst t) < N /\ snd (fst t) < M.
  Proof.
    intros Ht. apply in_concat in Ht. destruct Ht as (r & Hr & Ht). apply in_map_iff in Hr. destruct Hr as (i & <- & Hi). apply in_seq in Hi.
    apply in_map_iff in Ht. destruct Ht as (cv & <- & Hcv). cbn. split; [|lia].
    apply (line_In _ _ _ _ _ _ i cv H ltac:(lia) Hcv).
  Qed.
  Lemma off_S k : off (S k) = off k + tot k.
  Proof. unfold off. rewrite seq_S, map_app, list_sum_app. cbn. lia. Qed.
  Lemma off_mono a b : a <= b -> off a <= off b.
  Proof. induction 1; auto. rewrite off_S. lia. Qed.
  Lemma off_N : off N = length Ai.
  Proof.
    rewrite <- T_length. unfold off, tot.
    assert (G' : forall U : list (nat * nat * Qc), (forall t, In t U -> fst (fst t) < N) ->
       list_sum (map (fun c => length (bucket U c)) (seq 0 N)) = length U).
    { clear. intros U HU. induction U as [|t U IH].
      - cbn. induction (seq 0 N); cbn; auto.
      - specialize (IH (fun x Hx => HU x (or_intror Hx))). specialize (HU t (or_introl eq_refl)). cbn [length]. rewrite <- IH. clear IH.
        assert (Q : forall s n, list_sum (map (fun c => length (bucket (t :: U) c)) (seq s n)) =
            list_sum (map (fun c => length (bucket U c)) (seq s n)) + (if (s <=? fst (fst t)) && (fst (fst t) <? s + n) then 1 else 0)).
        { intros s n. revert s. induction n as [|n IHn]; intros s.
          - cbn [seq map list_sum fold_right]. destruct (Nat.leb_spec s (fst (fst t))), (Nat.ltb_spec (fst (fst t)) (s + 0)); cbn; lia.
          - cbn [seq map]. change (list_sum (?a :: ?b)) with (a + list_sum b). rewrite IHn. unfold bucket at 1. cbn [filter].
            change (length (bucket U s)) with (length (map (fun t => (snd (fst t), snd t)) (filter (fun t => fst (fst t) =? s) U))).
            destruct (Nat.eqb_spec (fst (fst t)) s); cbn [map length];
            destruct (Nat.leb_spec (S s) (fst (fst t))), (Nat.leb_spec s (fst (fst t))), (Nat.ltb_spec (fst (fst t)) (S s + n)), (Nat.ltb_spec (fst (fst t)) (s + S n)); cbn; lia. }
        rewrite Q. destruct (Nat.leb_spec 0 (fst (fst t))), (Nat.ltb_spec (fst (fst t)) (0 + N)); cbn; lia. }
    apply G'. intros t Ht. apply (T_bound t Ht).
  Qed.
  Lemma nnz_ok : nth M Ap 0 - ind = length Ai.
  Proof. destruct H as (_ & _ & _ & E & _). lia. Qed.

  (** counting *)
  Lemma count_loop : exists Bp, foldM (seq 0 (length Ai)) (fun Bp i =>
      do a <- at_ Ai i; do c <- minus_ a ind; do x <- at_ Bp c; put Bp c (x + 1)) (repeat 0 (N + 1)) = Ok Bp /\
      length Bp = N + 1 /\ forall c, c < N -> nth c Bp 0 = tot c.
  Proof.
    match goal with |- exists Bp, foldM _ ?f _ = _ /\ _ =>
      destruct (foldM_seq f (fun k Bp => length Bp = N + 1 /\ forall c, c < N ->
        nth c Bp 0 = length (filter (fun x => x =? c) (firstn k (map (fun c => c - ind) Ai)))) 0 (length Ai) (repeat 0 (N + 1))) as (Bp & E & L & R) end.
    - rewrite repeat_length. split; auto. intros c Hc. cbn. apply nth_repeat.
    - intros k Bp Hk (L & R). assert (B : ind <= nth k Ai 0 < ind + N) by (apply H, nth_In; lia).
      rewrite (at_ok _ _ 0) by lia. cbn [bind]. rewrite minus_ok by lia. cbn [bind].
      rewrite (at_ok _ _ 0) by lia. cbn [bind]. rewrite put_ok by lia. eexists. split; [reflexivity|]. rewrite upd_length. split; auto.
      assert (FS : firstn (S k) (map (fun c => c - ind) Ai) = firstn k (map (fun c => c - ind) Ai) ++ [nth k Ai 0 - ind]).
      { clear -Hk. assert (Hk' : k < length Ai) by lia. clear Hk. revert k Hk'. induction Ai as [|a l IH]; intros [|k] Hk; cbn in *; try lia; auto. f_equal. apply IH. lia. }
      intros c Hc. rewrite FS, filter_app, app_length. rewrite upd_nth by lia. cbn [filter]. rewrite <- (R c Hc).
      destruct (Nat.eqb_spec c (nth k Ai 0 - ind)) as [->|n].
      + rewrite Nat.eqb_refl. reflexivity.
      + destruct (Nat.eqb_spec (nth k Ai 0 - ind) c); [lia|]. cbn. lia.
    - exists Bp. split; [exact E|]. split; auto. intros c Hc. rewrite R by auto. cbn [plus]. rewrite firstn_all2 by (rewrite map_length; lia).
      rewrite <- T_keys. unfold tot, bucket. rewrite map_length. clear. induction T as [|t U IH]; cbn; auto. destruct (fst (fst t) =? c); cbn; auto.
  Qed.
  Lemma cumsum_loop Bp : length Bp = N + 1 -> (forall c, c < N -> nth c Bp 0 = tot c) ->
    exists Bp', foldM (seq 0 N) (fun s j => let '(Bp, csum) := s in
      do tmp <- at_ Bp j; do Bp' <- put Bp j csum; Ok (Bp', csum + tmp)) (Bp, 0) = Ok (Bp', off N) /\
      length Bp' = N + 1 /\ forall c, c < N -> nth c Bp' 0 = off c.
  Proof.
    intros L0 R0. match goal with |- exists Bp', foldM _ ?f _ = _ /\ _ =>
      destruct (foldM_seq f (fun k s => length (fst s) = N + 1 /\ snd s = off k /\ forall c, c < N ->
        nth c (fst s) 0 = if c <? k then off c else tot c) 0 N (Bp, 0)) as ([Bp' cs] & E & L & C & R) end.
    - cbn [fst snd]. split; auto.
    - intros k [B cs] Hk (L & C & R). cbn [fst snd] in *. rewrite (at_ok _ _ 0) by lia. cbn [bind]. rewrite put_ok by lia. cbn [bind].
      eexists. split; [reflexivity|]. cbn [fst snd]. rewrite upd_length. split; auto. split.
      + rewrite C, off_S, R by lia. destruct (Nat.ltb_spec k k); lia.
      + intros c Hc. rewrite upd_nth by lia. destruct (Nat.eqb_spec c k) as [->|n].
        * destruct (Nat.ltb_spec k (S k)); [auto|lia].
        * rewrite R by auto. destruct (Nat.ltb_spec c k), (Nat.ltb_spec c (S k)); auto; lia.
    - exists Bp'. cbn [fst snd plus] in *. subst cs. split; [exact E|]. split; auto. intros c Hc. rewrite R by auto.
      destruct (Nat.ltb_spec c N); auto; lia.
  Qed.
  Lemma swap_loop Bp : length Bp = N + 1 -> (forall c, c < N -> nth c Bp 0 = off (S c)) -> nth N Bp 0 = off N ->
    exists l, foldM (seq 0 N) (fun s j => let '(Bp, last) := s in
      do tmp <- at_ Bp j; do Bp' <- put Bp j last; Ok (Bp', tmp)) (Bp, 0) = Ok (map off (seq 0 (N + 1)), l).
  Proof.
    intros L0 R0 N0. match goal with |- exists l, foldM _ ?f _ = _ =>
      destruct (foldM_seq f (fun k s => length (fst s) = N + 1 /\ snd s = off k /\ nth N (fst s) 0 = off N /\ forall c, c < N ->
        nth c (fst s) 0 = if c <? k then off c else off (S c)) 0 N (Bp, 0)) as ([Bp' cs] & E & L & C & RN & R) end.
    - cbn [fst snd]. split; auto.
    - intros k [B cs] Hk (L & C & RN & R). cbn [fst snd] in *. rewrite (at_ok _ _ 0) by lia. cbn [bind]. rewrite put_ok by lia. cbn [bind].
      eexists. split; [reflexivity|]. cbn [fst snd]. rewrite upd_length. split; auto. split; [|split].
      + rewrite R by lia. destruct (Nat.ltb_spec k k); auto; lia.
      + rewrite upd_nth by lia. destruct (Nat.eqb_spec N k); auto; lia.
      + intros c Hc. rewrite upd_nth by lia. destruct (Nat.eqb_spec c k) as [->|n].
        * destruct (Nat.ltb_spec k (S k)); [auto|lia].
        * rewrite R by auto. destruct (Nat.ltb_spec c k), (Nat.ltb_spec c (S k)); auto; lia.
    - exists cs. cbn [fst snd plus] in *. rewrite E. f_equal. f_equal. apply (nth_ext' _ _ 0); [rewrite map_length, seq_length; auto|].
      intros i Hi. rewrite nth_map_seq by lia. destruct (Nat.eq_dec i N) as [->|]; auto. rewrite R by lia. destruct (Nat.ltb_spec i N); auto; lia.
  Qed.

  (** scattering: the state after the triples [done] *)
  Definition scat (done : list (nat * nat * Qc)) (s : list nat * list nat * list Qc) : Prop :=
    let '(Bp, Bi, Bz) := s in
    length Bp = N + 1 /\ (forall c, c < N -> nth c Bp 0 = off c + length (bucket done c)) /\ nth N Bp 0 = length Ai /\
    exists L1 L2, Bi = concat L1 /\ Bz = concat L2 /\ map (@length _) L1 = map tot (seq 0 N) /\ map (@length _) L2 = map tot (seq 0 N) /\
      forall c, c < N -> exists r1 r2, nth c L1 [] = map fst (bucket done c) ++ r1 /\ nth c L2 [] = map snd (bucket done c) ++ r2.
  Lemma off_offset {X} (L : list (list X)) c : map (@length X) L = map tot (seq 0 N) -> c <= N -> offset L c = off c.
  Proof. intros E Hc. unfold offset, off. rewrite E, firstn_map, firstn_seq by auto. reflexivity. Qed.
  Lemma len_nth {X} (L : list (list X)) c : map (@length X) L = map tot (seq 0 N) -> c < N -> length L = N /\ length (nth c L []) = tot c.
  Proof.
    intros E Hc. split.
    - rewrite <- (map_length (@length X)), E, map_length, seq_length. reflexivity.
    - rewrite <- (map_nth (@length X)), E. rewrite nth_map_seq by auto. reflexivity.
  Qed.
  Lemma scat_step done c i v rest s j : T = done ++ (c, i, v) :: rest -> scat done s ->
    at_ Ai j = Ok (ind + c) -> at_ Az j = Ok v ->
    exists s', (let '(Bp, Bi, Bz) := s in
      do a <- at_ Ai j; do col_idx <- minus_ a ind;
      do dest <- at_ Bp col_idx;
      do Bi <- put Bi dest i;
      do z <- at_ Az j;
      do Bz <- put Bz dest z;
      do Bp <- put Bp col_idx (dest + 1);
      Ok (Bp, Bi, Bz)) = Ok s' /\ scat (done ++ [(c, i, v)]) s'.
  Proof.
    intros ET HS A1 A2. destruct s as [[Bp Bi] Bz]. destruct HS as (LB & RB & NB & L1 & L2 & -> & -> & M1 & M2 & R).
    assert (Hc : c < N) by (apply (T_bound (c, i, v)); rewrite ET; apply in_or_app; right; left; auto).
    rewrite A1. cbn [bind]. rewrite minus_ok by lia. cbn [bind]. replace (ind + c - ind) with c by lia.
    rewrite (at_ok _ _ 0) by lia. cbn [bind]. rewrite RB by auto.
    destruct (len_nth L1 c M1 Hc) as [G1 K1]. destruct (len_nth L2 c M2 Hc) as [G2 K2].
    assert (LT : length (bucket done c) < tot c).
    { unfold tot. rewrite ET, bucket_app, app_length. unfold bucket at 3. cbn [filter fst snd]. rewrite Nat.eqb_refl. cbn. lia. }
    assert (PI : put (concat L1) (off c + length (bucket done c)) i = Ok (concat (upd L1 c (upd (nth c L1 []) (length (bucket done c)) i)))).
    { rewrite <- (off_offset L1 c M1) by lia. apply put_cell; lia. }
    rewrite PI. cbn [bind]. rewrite A2. cbn [bind].
    assert (PZ : put (concat L2) (off c + length (bucket done c)) v = Ok (concat (upd L2 c (upd (nth c L2 []) (length (bucket done c)) v)))).
    { rewrite <- (off_offset L2 c M2) by lia. apply put_cell; lia. }
    rewrite PZ. cbn [bind]. rewrite put_ok by lia. cbn [bind]. eexists. split; [reflexivity|].
    unfold scat. rewrite upd_length.
    assert (BS : forall c', bucket (done ++ [(c, i, v)]) c' = bucket done c' ++ if c =? c' then [(i, v)] else []).
    { intros c'. rewrite bucket_app. f_equal. unfold bucket. cbn [filter fst snd]. destruct (c =? c'); reflexivity. }
    split; [auto|]. split; [|split].
    - intros c' Hc'. rewrite upd_nth by lia. rewrite BS, app_length. destruct (Nat.eqb_spec c' c) as [->|n].
      + rewrite Nat.eqb_refl. cbn. lia.
      + destruct (Nat.eqb_spec c c'); [lia|]. rewrite RB by auto. cbn. lia.
    - rewrite upd_nth by lia. destruct (Nat.eqb_spec N c); auto; lia.
    - eexists _, _. split; [reflexivity|]. split; [reflexivity|]. rewrite !upd_map_length by (rewrite ?upd_length; lia). split; [auto|]. split; [auto|].
      intros c' Hc'. rewrite !upd_nth by lia. rewrite BS. destruct (R c' Hc') as (r1 & r2 & E1 & E2). destruct (Nat.eqb_spec c' c) as [->|n].
      + rewrite Nat.eqb_refl, E1, E2. rewrite E1, app_length, map_length in K1. rewrite E2, app_length, map_length in K2.
        destruct r1 as [|y1 r1]; [cbn in K1; lia|]. destruct r2 as [|y2 r2]; [cbn in K2; lia|].
        assert (U1 : upd (map fst (bucket done c) ++ y1 :: r1) (length (bucket done c)) i = map fst (bucket done c) ++ i :: r1) by (rewrite <- (map_length fst (bucket done c)); apply upd_mid).
        assert (U2 : upd (map snd (bucket done c) ++ y2 :: r2) (length (bucket done c)) v = map snd (bucket done c) ++ v :: r2) by (rewrite <- (map_length snd (bucket done c)); apply upd_mid).
        exists r1, r2. rewrite U1, U2.
        rewrite !map_app, <- !app_assoc. split; reflexivity.
      + destruct (Nat.eqb_spec c c'); [lia|]. rewrite app_nil_r. eauto.
  Qed.

  Lemma T_split i : i < M -> exists rest, T = concat (map G (seq 0 i)) ++ G i ++ rest.
  Proof.
    intros Hi. exists (concat (map G (seq (S i) (M - S i)))). unfold T, csc_triples.
    change (concat (map G (seq 0 M)) = concat (map G (seq 0 i)) ++ G i ++ concat (map G (seq (S i) (M - S i)))).
    replace M with (i + S (M - S i)) at 1 by lia. rewrite seq_app, map_app, concat_app. reflexivity.
  Qed.
  Lemma scatter_loop s0 : scat [] s0 ->
    exists s, foldM (seq 0 M) (fun s i =>
      do ap0 <- at_ Ap i; do ap1 <- at_ Ap (i + 1);
      do j_st <- minus_ ap0 ind; do j_en <- minus_ ap1 ind;
      foldM (seq j_st (j_en - j_st)) (fun s j =>
        let '(Bp, Bi, Bz) := s in
        do a <- at_ Ai j; do col_idx <- minus_ a ind;
        do dest <- at_ Bp col_idx;
        do Bi <- put Bi dest i;
        do z <- at_ Az j;
        do Bz <- put Bz dest z;
        do Bp <- put Bp col_idx (dest + 1);
        Ok (Bp, Bi, Bz)) s) s0 = Ok s /\ scat T s.
  Proof.
    intros S0. match goal with |- exists s, foldM _ ?f _ = _ /\ _ =>
      destruct (foldM_seq f (fun k s => scat (concat (map G (seq 0 k))) s) 0 M s0 S0) as (s & E & R) end.
    2:{ exists s. split; [exact E|exact R]. }
    intros i s Hi HS. pose proof (ptr_len H). pose proof (ptr_range _ _ _ _ _ _ H i ltac:(lia)). pose proof (ptr_range _ _ _ _ _ _ H (S i) ltac:(lia)).
    pose proof (ptr_step H i ltac:(lia)) as PS. rewrite !(at_ok _ _ 0) by lia. cbn [bind]. rewrite Nat.add_1_r, !minus_ok by lia. cbn [bind].
    set (a := nth i Ap 0 - ind) in *. set (b := nth (S i) Ap 0 - ind) in *.
    assert (NL : length Az = length Ai) by apply H.
    assert (LL : line_ i = map (fun j => (nth j Ai 0 - ind, nth j Az 0%Qc)) (seq a (b - a))) by (apply (line_pairs H); lia).
    destruct (T_split i ltac:(lia)) as [rest ET].
    match goal with |- exists s', foldM _ ?f _ = _ /\ _ =>
      destruct (foldM_seq f (fun k s => scat (concat (map G (seq 0 i)) ++ map (fun j => (nth j Ai 0 - ind, i, nth j Az 0%Qc)) (seq a (k - a))) s) a (b - a) s) as (s' & E & R) end.
    - rewrite Nat.sub_diag. cbn. rewrite app_nil_r. exact HS.
    - intros j s1 Hj HS1.
      assert (B : ind <= nth j Ai 0 < ind + N) by (apply H, nth_In; lia).
      destruct (scat_step (concat (map G (seq 0 i)) ++ map (fun j => (nth j Ai 0 - ind, i, nth j Az 0%Qc)) (seq a (j - a)))
         (nth j Ai 0 - ind) i (nth j Az 0%Qc) (map (fun j => (nth j Ai 0 - ind, i, nth j Az 0%Qc)) (seq (S j) (b - S j)) ++ rest) s1 j) as (s2 & E2 & R2); auto.
      + rewrite ET, <- app_assoc. f_equal. unfold G. rewrite LL, map_map. cbn [fst snd].
        replace (b - a) with ((j - a) + S (b - S j)) by lia. rewrite seq_app, map_app, <- app_assoc. f_equal. cbn [seq map app]. 
        replace (a + (j - a)) with j by lia. reflexivity.
      + rewrite (at_ok _ _ 0) by lia. f_equal. lia.
      + apply at_ok. lia.
      + exists s2. split; [exact E2|]. rewrite <- app_assoc in R2. replace (S j - a) with (j - a + 1) by lia. rewrite seq_app, map_app.
        cbn [seq map]. replace (a + (j - a)) with j by lia. exact R2.
    - exists s'. split; [exact E|]. rewrite seq_S, map_app, concat_app. cbn [map concat plus]. rewrite app_nil_r. unfold G at 2. rewrite LL, map_map. cbn [fst snd].
      replace (a + (b - a) - a) with (b - a) in R by lia. exact R.
  Qed.
  Lemma scat_final Bp Bi Bz : scat T (Bp, Bi, Bz) ->
    length Bp = N + 1 /\ (forall c, c < N -> nth c Bp 0 = off (S c)) /\ nth N Bp 0 = off N /\
    Bi = map fst (concat (map (bucket T) (seq 0 N))) /\ Bz = map snd (concat (map (bucket T) (seq 0 N))).
  Proof.
    intros (LB & RB & NB & L1 & L2 & -> & -> & M1 & M2 & R). split; [auto|]. split; [|split; [|split]].
    - intros c Hc. rewrite RB, off_S by auto. reflexivity.
    - rewrite NB, off_N. reflexivity.
    - rewrite concat_map, map_map. f_equal. apply (nth_ext' _ _ []).
      + rewrite map_length, seq_length. rewrite <- (map_length (@length nat)), M1, map_length, seq_length. reflexivity.
      + intros c Hc. rewrite <- (map_length (@length nat)), M1, map_length, seq_length in Hc. rewrite nth_map_seq by auto.
        destruct (R c Hc) as (r1 & r2 & E1 & E2). destruct (len_nth L1 c M1 Hc) as [_ K]. rewrite E1, app_length, map_length in K.
        fold (tot c) in K. destruct r1; [rewrite app_nil_r in E1; auto|cbn in K; lia].
    - rewrite concat_map, map_map. f_equal. apply (nth_ext' _ _ []).
      + rewrite map_length, seq_length. rewrite <- (map_length (@length Qc)), M2, map_length, seq_length. reflexivity.
      + intros c Hc. rewrite <- (map_length (@length Qc)), M2, map_length, seq_length in Hc. rewrite nth_map_seq by auto.
        destruct (R c Hc) as (r1 & r2 & E1 & E2). destruct (len_nth L2 c M2 Hc) as [_ K]. rewrite E2, app_length, map_length in K.
        fold (tot c) in K. destruct r2; [rewrite app_nil_r in E2; auto|cbn in K; lia].
  Qed.

  Lemma add_loop (l : list nat) n : length l = n -> foldM (seq 0 n) (fun B j => do x <- at_ B j; put B j (x + ind)) l = Ok (map (fun x => x + ind) l).
  Proof.
    intros L. match goal with |- foldM _ ?f _ = _ =>
      destruct (foldM_seq f (fun k B => length B = n /\ forall j, j < n -> nth j B 0 = if j <? k then nth j l 0 + ind else nth j l 0) 0 n l) as (B & E & LB & R) end.
    - split; auto.
    - intros k B Hk (LB & R). rewrite (at_ok _ _ 0) by lia. cbn [bind]. rewrite put_ok by lia. eexists. split; [reflexivity|].
      rewrite upd_length. split; auto. intros j Hj. rewrite upd_nth by lia. rewrite !R by lia.
      destruct (Nat.eqb_spec j k) as [->|]; destruct (Nat.ltb_spec k k), (Nat.ltb_spec k (S k)); try lia.
      destruct (Nat.ltb_spec j k), (Nat.ltb_spec j (S k)); auto; lia.
    - rewrite E. f_equal. apply (nth_ext' _ _ 0); [rewrite map_length; lia|]. intros j Hj. rewrite R by lia. destruct (Nat.ltb_spec j (0 + n)); [|lia].
      rewrite (nth_indep (map (fun x => x + ind) l) 0 (0 + ind)) by (rewrite map_length; lia). rewrite (map_nth (fun x => x + ind)). reflexivity.
  Qed.

  Lemma csr_to_csc_ok : csr_to_csc M N Ap Ai Az (repeat 0 (N + 1)) (repeat 0 (length Ai)) (repeat 0%Qc (length Ai)) ind =
    Ok (prefix_sums ind (map tot (seq 0 N)), map (fun cv => ind + fst cv) (concat (map (bucket T) (seq 0 N))), map snd (concat (map (bucket T) (seq 0 N)))).
  Proof.
    unfold csr_to_csc. pose proof (ptr_len H). rewrite (at_ok _ _ 0) by lia. cbn [bind].
    rewrite minus_ok by (apply (ptr_range _ _ _ _ _ _ H); lia). cbn [bind]. rewrite nnz_ok.
    assert (P0 : put_all (repeat 0 (N + 1)) 0 (repeat 0 N) = Ok (repeat 0 (N + 1))).
    { rewrite repeat_app. apply (put_all_mid [] (repeat 0 N) (repeat 0 1) (repeat 0 N)). reflexivity. }
    rewrite P0. cbn [bind].
    destruct count_loop as (B1 & E1 & L1 & R1). rewrite E1. cbn [bind].
    destruct (cumsum_loop B1 L1 R1) as (B2 & E2 & L2 & R2). rewrite E2. cbn [bind fst].
    rewrite put_ok by lia. cbn [bind].
    destruct (scatter_loop (upd B2 N (length Ai), repeat 0 (length Ai), repeat 0%Qc (length Ai))) as ([[B3 Bi] Bz] & E3 & R3).
    { split; [rewrite upd_length; auto|]. split; [|split].
      - intros c Hc. rewrite upd_nth by lia. destruct (Nat.eqb_spec c N); [lia|]. rewrite R2 by auto. cbn. lia.
      - rewrite upd_nth by lia. rewrite Nat.eqb_refl. reflexivity.
      - exists (map (fun c => repeat 0 (tot c)) (seq 0 N)), (map (fun c => repeat 0%Qc (tot c)) (seq 0 N)).
        assert (Q : forall X (x : X) k, repeat x (off k) = concat (map (fun c => repeat x (tot c)) (seq 0 k))).
        { intros X x k. induction k as [|k IH]; auto. rewrite off_S, repeat_app, IH, seq_S, map_app, concat_app. cbn. rewrite app_nil_r. reflexivity. }
        rewrite <- off_N, !Q. split; [auto|]. split; [auto|]. rewrite !map_map. split; [apply map_ext; intros; apply repeat_length|].
        split; [apply map_ext; intros; apply repeat_length|]. intros c Hc. eexists _, _. split; reflexivity. }
    rewrite E3. cbn [bind]. destruct (scat_final _ _ _ R3) as (L3 & R4 & N4 & -> & ->).
    destruct (swap_loop B3 L3 R4 N4) as (lst & E4). rewrite E4. cbn [bind fst].
    assert (PS : prefix_sums ind (map tot (seq 0 N)) = map (fun x => x + ind) (map off (seq 0 (N + 1)))).
    { apply (nth_ext' _ _ 0); [rewrite prefix_sums_length, !map_length, !seq_length; auto|].
      rewrite prefix_sums_length, map_length, seq_length. intros i Hi. rewrite map_map, nth_map_seq by lia.
      rewrite prefix_sums_nth by (rewrite map_length, seq_length; lia). rewrite firstn_map, firstn_seq by lia. fold (off i). lia. }
    destruct (Nat.eqb_spec ind 0) as [I0|I0]; cbn [negb].
    - f_equal. f_equal. f_equal.
      + rewrite PS. rewrite I0. rewrite map_map. apply map_ext. intros; lia.
      + rewrite I0. apply map_ext. reflexivity.
    - rewrite add_loop by (rewrite map_length, seq_length; auto). cbn [bind]. rewrite <- PS.
      rewrite add_loop. 2:{ rewrite map_length, concat_length, map_map. fold tot. fold (off N). apply off_N. }
      cbn [bind]. rewrite map_map. f_equal. f_equal. f_equal. apply map_ext. intros; lia.
  Qed.
  Lemma csc_bucket_bound : forall r, In r (map (bucket T) (seq 0 N)) -> forall cv, In cv r -> fst cv < M.
  Proof.
    intros r Hr cv Hcv. apply in_map_iff in Hr. destruct Hr as (i & <- & _). apply in_map_iff in Hcv. destruct Hcv as (t & <- & Ht).
    apply filter_In in Ht. apply (T_bound t), Ht.
  Qed.
  Lemma csc_bucket_entry c i : i < M -> entry (bucket T c) i = entry (line ind Ap Ai Az i) c.
  Proof.
    intros Hi. rewrite bucket_entry. unfold T, csc_triples. rewrite tsum_concat.
    rewrite (sum_ext _ _ (fun k => if k =? i then entry (line ind Ap Ai Az i) c else 0%Qc)).
    - rewrite (sum_single (seq 0 M) i (fun k => if k =? i then entry (line ind Ap Ai Az i) c else 0%Qc)).
      + rewrite Nat.eqb_refl. reflexivity.
      + apply seq_NoDup.
      + apply in_seq. lia.
      + intros k Hk Hn. destruct (Nat.eqb_spec k i); congruence.
    - intros k _. unfold tsum, entry. rewrite sum_map. cbn [fst snd]. destruct (Nat.eqb_spec k i) as [->|n].
      + apply sum_ext. intros cv _. rewrite andb_true_r. reflexivity.
      + apply sum_zero. intros cv _. rewrite andb_false_r. reflexivity.
  Qed.
  (** within a row of the result the columns are ordered *)
  Lemma csc_bucket_ordered c : ordered_line (bucket T c).
  Proof.
    unfold ordered_line, bucket. rewrite map_map. cbn [fst]. unfold T, csc_triples.
    assert (Q : forall k s, StronglySorted le (map (fun t => snd (fst t)) (filter (fun t => fst (fst t) =? c)
        (concat (map (fun i => map (fun cv : nat * Qc => (fst cv, i, snd cv)) (line ind Ap Ai Az i)) (seq s k))))) /\
        forall x, In x (map (fun t => snd (fst t)) (filter (fun t => fst (fst t) =? c)
        (concat (map (fun i => map (fun cv : nat * Qc => (fst cv, i, snd cv)) (line ind Ap Ai Az i)) (seq s k))))) -> s <= x).
    { clear. induction k as [|k IH]; intros s; cbn [seq map concat filter]; [split; [constructor|intros x []]|].
      destruct (IH (S s)) as [I1 I2]. rewrite filter_app, map_app.
      assert (E : forall x, In x (map (fun t => snd (fst t)) (filter (fun t => fst (fst t) =? c) (map (fun cv : nat * Qc => (fst cv, s, snd cv)) (line ind Ap Ai Az s)))) -> x = s).
      { intros x Hx. apply in_map_iff in Hx. destruct Hx as (t & <- & Ht). apply filter_In in Ht. destruct Ht as [Ht _].
        apply in_map_iff in Ht. destruct Ht as (cv & <- & _). reflexivity. }
      revert E. generalize (map (fun t : nat * nat * Qc => snd (fst t)) (filter (fun t => fst (fst t) =? c) (map (fun cv : nat * Qc => (fst cv, s, snd cv)) (line ind Ap Ai Az s)))) as l.
      intros l E. split.
      - induction l as [|x l IHl]; cbn; auto. constructor; [apply IHl; intros; apply E; right; auto|]. apply Forall_forall. intros y Hy.
        pose proof (E x (or_introl eq_refl)). apply in_app_or in Hy. destruct Hy as [Hy|Hy]; [rewrite (E y (or_intror Hy)); lia|specialize (I2 y Hy); lia].
      - intros x Hx. apply in_app_or in Hx. destruct Hx as [Hx|Hx]; [rewrite (E x Hx); lia|specialize (I2 x Hx); lia]. }
    apply Q.
  Qed.
End CSC.

Lemma csr_of_csc_ok A : csc_wf A ->
  csr_of_csc A = Ok (rows_csr (csc_ind A) (csc_n A)
    (map (bucket (csc_triples (csc_ind A) (csc_n A) (colptr A) (rowind A) (csc_val A))) (seq 0 (csc_m A)))).
Proof.
  intros H. unfold csr_of_csc, csr_alloc. cbn [rowptr colind nzval]. assert (V : length (csc_val A) = length (rowind A)) by apply H.
  rewrite V, (csr_to_csc_ok _ _ _ _ _ _ H). cbn [bind]. unfold rows_csr. rewrite !map_length, seq_length, map_map. reflexivity.
Qed.

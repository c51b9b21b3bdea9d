(** Lemmas on dense array loops; integral transforms (C45). *)
From Coq Require Import QArith Qcanon Bool Lia.
From Verif Require Import Base Sums Ham HamProofs Asci Mem MemProofs SparseProofs1 RdmIOProofs Dense DenseSpec.
Local Open Scope nat_scope.

(** *** sums *)
Lemma Sigma_ext n f g : (forall i, i < n -> f i = g i) -> Sigma n f = Sigma n g.
Proof. intros H. apply sum_ext. intros i Hi. apply in_seq in Hi. apply H. lia. Qed.
Lemma Sigma_swap n m f : Sigma n (fun i => Sigma m (fun j => f i j)) = Sigma m (fun j => Sigma n (fun i => f i j)).
Proof. apply sum_swap. Qed.
Lemma Sigma_scale n c f : Sigma n (fun i => c * f i)%Qc = (c * Sigma n f)%Qc. Proof. apply sum_scale. Qed.
Lemma Sigma_scale_r n c f : Sigma n (fun i => f i * c)%Qc = (Sigma n f * c)%Qc. Proof. apply sum_scale_r. Qed.
Lemma Sigma_plus n f g : Sigma n (fun i => f i + g i)%Qc = (Sigma n f + Sigma n g)%Qc. Proof. apply sum_plus. Qed.
Lemma Sigma_minus n f g : Sigma n (fun i => f i - g i)%Qc = (Sigma n f - Sigma n g)%Qc. Proof. apply sum_minus. Qed.
Lemma Sigma_opp n f : Sigma n (fun i => - f i)%Qc = (- Sigma n f)%Qc. Proof. apply sum_opp. Qed.
Lemma Sigma_loop2 n m f : sum (loop2 n m) f = Sigma n (fun i => Sigma m (fun j => f (i, j))).
Proof. apply sum_prod. Qed.
Lemma Sigma_loop3 n m k f : sum (loop3 n m k) f = Sigma n (fun i => Sigma m (fun j => Sigma k (fun l => f (i, j, l)))).
Proof. unfold loop3. rewrite sum_prod, Sigma_loop2. reflexivity. Qed.
Lemma Sigma_loop4 n m k l f : sum (loop4 n m k l) f =
  Sigma n (fun a => Sigma m (fun b => Sigma k (fun c => Sigma l (fun d => f ((a, b), (c, d)))))).
Proof. unfold loop4. rewrite sum_prod, Sigma_loop2. do 2 (apply Sigma_ext; intros ? _). apply Sigma_loop2. Qed.
Lemma in_loop2 n m i j : In (i, j) (loop2 n m) <-> i < n /\ j < m.
Proof. unfold loop2. rewrite in_prod_iff, !in_seq. lia. Qed.
Lemma in_loop3 n m k i j l : In (i, j, l) (loop3 n m k) <-> i < n /\ j < m /\ l < k.
Proof. unfold loop3. rewrite in_prod_iff, in_loop2, in_seq. lia. Qed.
Lemma in_loop4 n m k l a b c d : In ((a, b), (c, d)) (loop4 n m k l) <-> a < n /\ b < m /\ c < k /\ d < l.
Proof. unfold loop4. rewrite in_prod_iff, !in_loop2. tauto. Qed.
Lemma nodup_loop2 n m : NoDup (loop2 n m). Proof. apply nodup_prod; apply seq_NoDup. Qed.
Lemma nodup_loop4 n m k l : NoDup (loop4 n m k l). Proof. apply nodup_prod; apply nodup_loop2. Qed.

(** *** positions *)
Lemma pos2_inj LD i j i' j' : i < LD -> i' < LD -> i + j * LD = i' + j' * LD -> i = i' /\ j = j'.
Proof.
  intros H H' E. assert (j = j').
  { assert (A : (i + j * LD) / LD = j) by (rewrite Nat.div_add, Nat.div_small by lia; lia).
    assert (B : (i' + j' * LD) / LD = j') by (rewrite Nat.div_add, Nat.div_small by lia; lia). congruence. }
  subst. lia.
Qed.
Lemma pos4_inj' LD i j k l i' j' k' l' : i < LD -> j < LD -> k < LD -> i' < LD -> j' < LD -> k' < LD ->
  i + j * LD + k * LD * LD + l * LD * LD * LD = i' + j' * LD + k' * LD * LD + l' * LD * LD * LD -> i = i' /\ j = j' /\ k = k' /\ l = l'.
Proof.
  intros. assert (E : i + (j + (k + l * LD) * LD) * LD = i' + (j' + (k' + l' * LD) * LD) * LD) by lia.
  destruct (pos2_inj _ _ _ _ _ H H2 E) as [-> E1]. destruct (pos2_inj _ _ _ _ _ H0 H3 E1) as [-> E2]. destruct (pos2_inj _ _ _ _ _ H1 H4 E2) as [-> ->]. auto.
Qed.

(** *** loops that fill an array *)
Lemma fill2 n m (loc : nat -> nat -> nat) (h : nat -> nat -> Qc) (f : list Qc -> nat * nat -> res (list Qc)) a :
  (forall i j i' j', i < n -> j < m -> i' < n -> j' < m -> loc i j = loc i' j' -> i = i' /\ j = j') ->
  (forall i j, i < n -> j < m -> loc i j < length a) ->
  (forall s i j, i < n -> j < m -> f s (i, j) = put s (loc i j) (h i j)) ->
  exists a', foldM (loop2 n m) f a = Ok a' /\ length a' = length a /\
    (forall i j, i < n -> j < m -> nth (loc i j) a' 0%Qc = h i j) /\
    (forall p, (forall i j, i < n -> j < m -> p <> loc i j) -> nth p a' 0%Qc = nth p a 0%Qc).
Proof.
  intros INJ B F.
  destruct (fill (loop2 n m) (fun ij => loc (fst ij) (snd ij)) (fun ij => h (fst ij) (snd ij)) f a) as (a' & E & L & R & U).
  - apply nodup_map_inj; [apply nodup_loop2|]. intros [i j] [i' j'] H H' E. apply in_loop2 in H, H'. cbn [fst snd] in E.
    apply INJ in E; try tauto. destruct E as [-> ->]. reflexivity.
  - intros [i j] H. apply in_loop2 in H. apply B; tauto.
  - intros s [i j] H. apply in_loop2 in H. apply F; tauto.
  - exists a'. split; auto. split; auto. split.
    + intros i j Hi Hj. apply (R (i, j)). apply in_loop2. auto.
    + intros p Hp. apply U. intros H. apply in_map_iff in H. destruct H as ([i j] & <- & H). apply in_loop2 in H. apply (Hp i j); tauto.
Qed.
Lemma fill4 n m k l (loc : nat -> nat -> nat -> nat -> nat) (h : nat -> nat -> nat -> nat -> Qc) (f : list Qc -> nat * nat * (nat * nat) -> res (list Qc)) a :
  (forall x y z w x' y' z' w', x < n -> y < m -> z < k -> w < l -> x' < n -> y' < m -> z' < k -> w' < l ->
     loc x y z w = loc x' y' z' w' -> x = x' /\ y = y' /\ z = z' /\ w = w') ->
  (forall x y z w, x < n -> y < m -> z < k -> w < l -> loc x y z w < length a) ->
  (forall s x y z w, x < n -> y < m -> z < k -> w < l -> f s ((x, y), (z, w)) = put s (loc x y z w) (h x y z w)) ->
  exists a', foldM (loop4 n m k l) f a = Ok a' /\ length a' = length a /\
    (forall x y z w, x < n -> y < m -> z < k -> w < l -> nth (loc x y z w) a' 0%Qc = h x y z w) /\
    (forall p, (forall x y z w, x < n -> y < m -> z < k -> w < l -> p <> loc x y z w) -> nth p a' 0%Qc = nth p a 0%Qc).
Proof.
  intros INJ B F.
  destruct (fill (loop4 n m k l) (fun t => loc (fst (fst t)) (snd (fst t)) (fst (snd t)) (snd (snd t)))
              (fun t => h (fst (fst t)) (snd (fst t)) (fst (snd t)) (snd (snd t))) f a) as (a' & E & L & R & U).
  - apply nodup_map_inj; [apply nodup_loop4|]. intros [[x y] [z w]] [[x' y'] [z' w']] H H' E. apply in_loop4 in H, H'. cbn [fst snd] in E.
    apply INJ in E; try tauto. destruct E as (-> & -> & -> & ->). reflexivity.
  - intros [[x y] [z w]] H. apply in_loop4 in H. apply B; tauto.
  - intros s [[x y] [z w]] H. apply in_loop4 in H. apply F; tauto.
  - exists a'. split; auto. split; auto. split.
    + intros x y z w Hx Hy Hz Hw. apply (R ((x, y), (z, w))). apply in_loop4. auto.
    + intros p Hp. apply U. intros H. apply in_map_iff in H. destruct H as ([[x y] [z w]] & <- & H). apply in_loop4 in H. apply (Hp x y z w); tauto.
Qed.
Lemma sumM_Sigma n f g acc : (forall i, i < n -> f i = Ok (g i)) -> sumM acc (seq 0 n) f = Ok (acc + Sigma n g)%Qc.
Proof. intros H. apply sumM_ok. intros i Hi. apply in_seq in Hi. apply H. lia. Qed.
Lemma sumM_Sigma0 n f g : (forall i, i < n -> f i = Ok (g i)) -> sumM 0%Qc (seq 0 n) f = Ok (Sigma n g).
Proof. intros H. rewrite (sumM_Sigma n f g) by auto. f_equal. ring. Qed.
Lemma sumM_loop2 n m f g acc : (forall i j, i < n -> j < m -> f (i, j) = Ok (g i j)) ->
  sumM acc (loop2 n m) f = Ok (acc + Sigma n (fun i => Sigma m (fun j => g i j)))%Qc.
Proof.
  intros H. rewrite (sumM_ok _ _ (fun ij => g (fst ij) (snd ij))).
  - rewrite Sigma_loop2. reflexivity.
  - intros [i j] Hij. apply in_loop2 in Hij. apply H; tauto.
Qed.
Lemma sumM_loop3 n m k f g acc : (forall i j l, i < n -> j < m -> l < k -> f (i, j, l) = Ok (g i j l)) ->
  sumM acc (loop3 n m k) f = Ok (acc + Sigma n (fun i => Sigma m (fun j => Sigma k (fun l => g i j l))))%Qc.
Proof.
  intros H. rewrite (sumM_ok _ _ (fun t => g (fst (fst t)) (snd (fst t)) (snd t))).
  - rewrite Sigma_loop3. reflexivity.
  - intros [[i j] l] Hij. apply in_loop3 in Hij. apply H; tauto.
Qed.
Lemma sumM_loop4 n m k l f g acc : (forall a b c d, a < n -> b < m -> c < k -> d < l -> f ((a, b), (c, d)) = Ok (g a b c d)) ->
  sumM acc (loop4 n m k l) f = Ok (acc + Sigma n (fun a => Sigma m (fun b => Sigma k (fun c => Sigma l (fun d => g a b c d)))))%Qc.
Proof.
  intros H. rewrite (sumM_ok _ _ (fun t => g (fst (fst t)) (snd (fst t)) (fst (snd t)) (snd (snd t)))).
  - rewrite Sigma_loop4. reflexivity.
  - intros [[a b] [c d]] Hij. apply in_loop4 in Hij. apply H; tauto.
Qed.

(** *** matrix products *)
Definition opA (transA : bool) (A : list Qc) (a0 LDA i l : nat) : Qc := nth (a0 + (if transA then l + i * LDA else i + l * LDA)) A 0%Qc.
Lemma gemm_ok (transA : bool) m n k A a0 LDA B b0 LDB C c0 LDC :
  0 < LDA -> 0 < LDB -> 0 < LDC -> (if transA then k else m) <= LDA -> k <= LDB -> m <= LDC ->
  (forall i l, i < m -> l < k -> a0 + (if transA then l + i * LDA else i + l * LDA) < length A) ->
  (forall l j, l < k -> j < n -> b0 + l + j * LDB < length B) ->
  (forall i j, i < m -> j < n -> c0 + i + j * LDC < length C) ->
  exists C', gemm transA m n k A a0 LDA B b0 LDB C c0 LDC = Ok C' /\ length C' = length C /\
    (forall i j, i < m -> j < n -> nth (c0 + i + j * LDC) C' 0%Qc = Sigma k (fun l => opA transA A a0 LDA i l * nth (b0 + l + j * LDB) B 0)%Qc) /\
    (forall p, (forall i j, i < m -> j < n -> p <> c0 + i + j * LDC) -> nth p C' 0%Qc = nth p C 0%Qc).
Proof.
  intros L1 L2 L3 HA HB HC RA RB RC. unfold gemm.
  destruct (Nat.ltb_spec LDA (Nat.max 1 (if transA then k else m))); [lia|].
  destruct (Nat.ltb_spec LDB (Nat.max 1 k)); [lia|]. destruct (Nat.ltb_spec LDC (Nat.max 1 m)); [lia|]. cbn [orb].
  apply fill2 with (loc := fun i j => c0 + i + j * LDC) (h := fun i j => Sigma k (fun l => opA transA A a0 LDA i l * nth (b0 + l + j * LDB) B 0)%Qc).
  - intros i j i' j' Hi Hj Hi' Hj' E. apply (pos2_inj LDC); lia.
  - intros; apply RC; auto.
  - intros s i j Hi Hj. rewrite (sumM_Sigma0 k _ (fun l => opA transA A a0 LDA i l * nth (b0 + l + j * LDB) B 0)%Qc).
    + reflexivity.
    + intros l Hl. rewrite (at_ok _ _ 0%Qc) by auto. cbn [bind]. rewrite (at_ok _ _ 0%Qc) by auto. reflexivity.
Qed.

(** *** two-index transform *)
Lemma two_index_ok no nn X LDX C LDC Y LDY : 0 < no -> 0 < nn -> fits2 X LDX no no -> fits2 C LDC no nn -> fits2 Y LDY nn nn ->
  exists Y', two_index_transform no nn X LDX C LDC Y LDY = Ok Y' /\
    filled2 Y Y' LDY nn nn (congruence2 no (at2 C LDC) (at2 X LDX)).
Proof.
  intros H0 H1 [X1 X2] [C1 C2] [Y1 Y2]. unfold two_index_transform.
  destruct (gemm_ok false no nn no X 0 LDX C 0 LDC (repeat 0%Qc (no * nn)) 0 no) as (TMP & E1 & L1 & R1 & _); try lia.
  - cbn [plus]. auto.
  - cbn [plus]. auto.
  - intros i j Hi Hj. rewrite repeat_length. cbn [plus]. nia.
  - rewrite E1. cbn [bind]. rewrite repeat_length in L1.
    destruct (gemm_ok true nn nn no C 0 LDC TMP 0 no Y 0 LDY) as (Y' & E2 & L2 & R2 & U2); try lia.
    + cbn [plus]. auto.
    + cbn [plus]. intros l j Hl Hj. rewrite L1. nia.
    + cbn [plus]. auto.
    + exists Y'. split; auto. split; auto. cbn [plus] in *. split; auto.
      intros p q Hp Hq. unfold at2 at 1. rewrite R2 by auto. unfold congruence2. apply Sigma_ext. intros i Hi. rewrite R1 by auto.
      rewrite <- Sigma_scale. apply Sigma_ext. intros j Hj. unfold opA, at2. cbn [plus]. ring.
Qed.

(** *** four-index transform *)
Lemma foldM_seq' {S} (f : S -> nat -> res S) (P : nat -> S -> Prop) n s : P 0 s ->
  (forall i s, i < n -> P i s -> exists s', f s i = Ok s' /\ P (Datatypes.S i) s') -> exists s', foldM (seq 0 n) f s = Ok s' /\ P n s'.
Proof.
  intros H0 H. enough (G : forall k a s, a + k = n -> P a s -> exists s', foldM (seq a k) f s = Ok s' /\ P n s') by (apply (G n 0); auto).
  induction k as [|k IH]; intros a s0 E Pa; cbn [seq foldM].
  - replace n with a by lia. eauto.
  - destruct (H a s0) as (s' & -> & P'); auto; [lia|]. cbn [bind]. apply IH; auto. lia.
Qed.
(** X with leading dimension LDX in the first index only *)
Definition first4 (X : list Qc) (LDX n i j k l : nat) : Qc := nth (i + (j + k * n + l * (n * n)) * LDX) X 0%Qc.
Lemma Sigma4_rev n f : Sigma n (fun l => Sigma n (fun k => Sigma n (fun j => Sigma n (fun i => f i j k l)))) =
  Sigma n (fun i => Sigma n (fun j => Sigma n (fun k => Sigma n (fun l => f i j k l)))).
Proof.
  transitivity (Sigma n (fun l => Sigma n (fun i => Sigma n (fun j => Sigma n (fun k => f i j k l))))).
  - apply Sigma_ext. intros l _. transitivity (Sigma n (fun k => Sigma n (fun i => Sigma n (fun j => f i j k l)))).
    + apply Sigma_ext. intros k _. apply Sigma_swap.
    + rewrite Sigma_swap. apply Sigma_ext. intros i _. apply Sigma_swap.
  - rewrite Sigma_swap. apply Sigma_ext. intros i _. rewrite Sigma_swap. apply Sigma_ext. intros j _. apply Sigma_swap.
Qed.
Lemma blk a b n : a < b -> (a + 1) * n <= b * n. Proof. intros. nia. Qed.
Lemma four_index_ok no nn X LDX C LDC Y LDY : 0 < no -> 0 < nn -> no <= LDX ->
  (forall i m, i < no -> m < no * no * no -> i + m * LDX < length X) -> fits2 C LDC no nn -> fits4 Y nn nn ->
  exists Y', four_index_transform no nn X LDX C LDC Y LDY = Ok Y' /\
    filled4 Y Y' nn nn (congruence4 no (at2 C LDC) (first4 X LDX no)).
Proof.
  intros H0 H1 X1 X2 [C1 C2] [_ Y2]. unfold four_index_transform.
  set (nn2 := nn * nn). set (nn3 := nn2 * nn). set (no2 := no * no). set (no3 := no2 * no). fold no2 in X2. fold no3 in X2.
  assert (P2 : 0 < nn2) by (unfold nn2; nia). assert (P3 : 0 < nn3) by (unfold nn3; nia).
  (* first quarter *)
  destruct (gemm_ok true nn no3 no C 0 LDC X 0 LDX (repeat 0%Qc (Nat.max (nn * no3) (no * nn3))) 0 nn) as (t1 & E1 & L1 & R1 & _); try lia.
  { cbn [plus]. auto. } { cbn [plus]. auto. }
  { intros i j Hi Hj. rewrite repeat_length. cbn [plus]. pose proof (blk j no3 nn Hj). nia. }
  rewrite E1. cbn [bind]. rewrite repeat_length in L1. cbn [plus] in R1.
  assert (Lt1 : nn * no3 <= length t1 /\ no * nn3 <= length t1) by (rewrite L1; lia). clear L1 E1.
  (* second quarter *)
  set (S1 := fun p m => Sigma no (fun i => at2 C LDC i p * nth (i + m * LDX) X 0)%Qc).
  assert (R1' : forall p m, p < nn -> m < no3 -> nth (p + m * nn) t1 0%Qc = S1 p m).
  { intros p m Hp Hm. rewrite R1 by auto. unfold S1. apply Sigma_ext. intros i Hi. unfold opA, at2. reflexivity. }
  clear R1.
  set (S2 := fun p q kl : nat => Sigma no (fun j => S1 p (j + kl * no)%nat * at2 C LDC j q)%Qc).
  match goal with |- context [foldM (seq 0 no2) ?f ?s] =>
    destruct (foldM_seq' f (fun k t2 => length t2 = nn2 * no2 /\
        forall kl p q, kl < k -> p < nn -> q < nn -> nth (kl * nn2 + p + q * nn) t2 0%Qc = S2 p q kl) no2 s) as (t2 & E2 & L2 & R2) end.
  { split; [apply repeat_length|]. intros; lia. }
  { intros kl s Hkl (L & R). pose proof (blk kl no2 nn2 Hkl) as B1. pose proof (blk kl no2 (no * nn) Hkl) as B2. pose proof (blk kl no2 no Hkl) as B3.
    destruct (gemm_ok false nn nn no t1 (kl * no * nn) nn C 0 LDC s (kl * nn2) nn) as (s' & E & L' & R' & U'); try lia.
    - intros p j Hp Hj. pose proof (blk j no nn Hj). unfold no3 in Lt1. nia.
    - cbn [plus]. auto.
    - intros p q Hp Hq. rewrite L. pose proof (blk q nn nn Hq) as HH. fold nn2 in HH. nia.
    - exists s'. split; auto. split; [lia|]. intros kl' p q Hkl' Hp Hq. destruct (Nat.eq_dec kl' kl) as [->|Ne].
      + rewrite R' by auto. unfold S2. apply Sigma_ext. intros j Hj. unfold opA, at2. cbn [plus]. f_equal.
        rewrite <- R1' by (auto; unfold no3; nia). f_equal. nia.
      + rewrite U'; [apply R; auto; lia|]. intros p' q' Hp' Hq' EE. pose proof (blk q nn nn Hq) as HA. pose proof (blk q' nn nn Hq') as HB. fold nn2 in HA, HB.
        pose proof (blk kl' kl nn2 ltac:(lia)). lia. }
  rewrite E2. cbn [bind]. clear E2.
  (* third quarter *)
  set (S3 := fun p q r l : nat => Sigma no (fun k => S2 p q (k + l * no)%nat * at2 C LDC k r)%Qc).
  match goal with |- context [foldM (seq 0 no) ?f ?s] =>
    destruct (foldM_seq' f (fun k t => length t = length t1 /\
        forall l p q r, l < k -> p < nn -> q < nn -> r < nn -> nth (l * nn3 + (p + q * nn) + r * nn2) t 0%Qc = S3 p q r l) no s) as (t3 & E3 & L3 & R3) end.
  { split; auto. intros; lia. }
  { intros l s Hl (L & R). pose proof (blk l no nn3 Hl) as B1. pose proof (blk l no no Hl) as B2. fold no2 in B2.
    destruct (gemm_ok false nn2 nn no t2 (l * nn2 * no) nn2 C 0 LDC s (l * nn3) nn2) as (s' & E & L' & R' & U'); try lia.
    - intros pq k Hpq Hk. rewrite L2. pose proof (blk k no nn2 Hk). nia.
    - cbn [plus]. auto.
    - intros pq r Hpq Hr. rewrite L. pose proof (blk r nn nn2 Hr) as HH. unfold nn3 in *. nia.
    - exists s'. split; auto. split; [lia|]. intros l' p q r Hl' Hp Hq Hr.
      assert (PQ : p + q * nn < nn2) by (pose proof (blk q nn nn Hq) as HH; fold nn2 in HH; lia).
      destruct (Nat.eq_dec l' l) as [->|Ne].
      + rewrite R' by auto. unfold S3. apply Sigma_ext. intros k Hk. unfold opA, at2. cbn [plus]. f_equal.
        rewrite <- R2 by (auto; nia). f_equal. nia.
      + rewrite U'; [apply R; auto; lia|]. intros pq' r' Hpq' Hr' EE. pose proof (blk r nn nn2 Hr). pose proof (blk r' nn nn2 Hr').
        assert (nn3 = nn * nn2) by (unfold nn3; lia). pose proof (blk l' l nn3 ltac:(lia)). lia. }
  rewrite E3. cbn [bind]. clear E3.
  (* fourth quarter *)
  destruct (gemm_ok false nn3 nn no t3 0 nn3 C 0 LDC Y 0 nn3) as (Y' & E4 & L4 & R4 & U4); try lia.
  { cbn [plus]. intros pqr l Hp Hl. rewrite L3. pose proof (blk l no nn3 Hl). lia. }
  { cbn [plus]. auto. }
  { cbn [plus]. intros pqr s Hp Hs. unfold nn3, nn2 in *.
    pose proof (Nat.div_mod pqr nn ltac:(lia)) as D1. set (u := pqr / nn) in *. pose proof (Nat.mod_upper_bound pqr nn ltac:(lia)) as M1.
    pose proof (Nat.div_mod u nn ltac:(lia)) as D2. pose proof (Nat.mod_upper_bound u nn ltac:(lia)) as M2.
    assert (u < nn * nn) by (unfold u; apply Nat.div_lt_upper_bound; lia).
    assert (u / nn < nn) by (apply Nat.div_lt_upper_bound; lia).
    specialize (Y2 (pqr mod nn) (u mod nn) (u / nn) s M1 M2 H2 Hs). nia. }
  rewrite E4. exists Y'. split; auto. cbn [plus] in R4, U4. split; auto. split.
  - intros p q r s Hp Hq Hr Hs. unfold at4.
    assert (PQ : p + q * nn < nn2) by (pose proof (blk q nn nn Hq) as HH; fold nn2 in HH; lia).
    assert (PQR : p + q * nn + r * nn2 < nn3) by (pose proof (blk r nn nn2 Hr) as HH; unfold nn3; lia).
    replace (p + q * nn + r * nn * nn + s * nn * nn * nn) with (p + q * nn + r * nn2 + s * nn3) by (unfold nn3, nn2; lia).
    rewrite R4 by auto. unfold congruence4. rewrite <- Sigma4_rev. apply Sigma_ext. intros l Hl. unfold opA. cbn [plus].
    replace (p + q * nn + r * nn2 + l * nn3) with (l * nn3 + (p + q * nn) + r * nn2) by lia. rewrite R3 by auto.
    unfold S3. rewrite <- Sigma_scale_r. apply Sigma_ext. intros k Hk. unfold S2.
    rewrite <- !Sigma_scale_r. apply Sigma_ext. intros j Hj. unfold S1. rewrite <- !Sigma_scale_r. apply Sigma_ext. intros i Hi.
    unfold first4, at2. replace (j + (k + l * no) * no) with (j + k * no + l * (no * no)) by lia. ring.
  - intros x Hx. apply U4. intros pqr s Hp Hs EE.
    unfold nn3, nn2 in Hp.
    pose proof (Nat.div_mod pqr nn ltac:(lia)) as D1. set (u := pqr / nn) in *. pose proof (Nat.mod_upper_bound pqr nn ltac:(lia)) as M1.
    pose proof (Nat.div_mod u nn ltac:(lia)) as D2. pose proof (Nat.mod_upper_bound u nn ltac:(lia)) as M2.
    assert (u < nn * nn) by (unfold u; apply Nat.div_lt_upper_bound; lia).
    assert (u / nn < nn) by (apply Nat.div_lt_upper_bound; lia).
    apply (Hx (pqr mod nn) (u mod nn) (u / nn) s); auto. rewrite EE. unfold nn3, nn2. nia.
Qed.
Lemma first4_packed X n i j k l : first4 X n n i j k l = at4 X n i j k l.
Proof. unfold first4, at4. f_equal. lia. Qed.
Lemma fits4_first X n : 0 < n -> fits4 X n n -> forall i m, i < n -> m < n * n * n -> i + m * n < length X.
Proof.
  intros H0 [_ H] i m Hi Hm.
  pose proof (Nat.div_mod m n ltac:(lia)) as D1. set (u := m / n) in *. pose proof (Nat.mod_upper_bound m n ltac:(lia)) as M1.
  assert (u < n * n) by (unfold u; apply Nat.div_lt_upper_bound; lia).
  pose proof (Nat.div_mod u n ltac:(lia)) as D2. pose proof (Nat.mod_upper_bound u n ltac:(lia)) as M2.
  assert (u / n < n) by (apply Nat.div_lt_upper_bound; lia).
  specialize (H i (m mod n) (u mod n) (u / n) Hi M1 M2 H2). nia.
Qed.

(** *** composition *)
Definition contract (n : nat) (C : nat -> nat -> Qc) (f : nat -> Qc) (p : nat) : Qc := Sigma n (fun i => C i p * f i)%Qc.
Lemma contract_product n m C1 C2 f p : contract m C2 (contract n C1 f) p = contract n (product m C1 C2) f p.
Proof.
  unfold contract, product. rewrite (Sigma_ext m _ (fun l => Sigma n (fun i => C1 i l * C2 l p * f i)%Qc)).
  - rewrite Sigma_swap. apply Sigma_ext. intros i _. apply Sigma_scale_r.
  - intros l _. rewrite <- Sigma_scale. apply Sigma_ext. intros i _. ring.
Qed.
Lemma contract_swap n m C1 C2 f p q : contract m C2 (fun b => contract n C1 (fun a => f a b) p) q = contract n C1 (fun a => contract m C2 (fun b => f a b) q) p.
Proof.
  unfold contract. rewrite (Sigma_ext m _ (fun b => Sigma n (fun a => C2 b q * (C1 a p * f a b))%Qc)) by (intros; symmetry; apply Sigma_scale).
  rewrite Sigma_swap. apply Sigma_ext. intros a _. rewrite <- Sigma_scale. apply Sigma_ext. intros b _. ring.
Qed.
Lemma contract_ext n C C' f g p : (forall i, i < n -> C i p = C' i p) -> (forall i, i < n -> f i = g i) -> contract n C f p = contract n C' g p.
Proof. intros H H'. unfold contract. apply Sigma_ext. intros i Hi. rewrite H, H' by auto. reflexivity. Qed.
Lemma congruence2_contract n C X p q : congruence2 n C X p q = contract n C (fun i => contract n C (X i) q) p.
Proof.
  unfold congruence2, contract. apply Sigma_ext. intros i _. rewrite <- Sigma_scale. apply Sigma_ext. intros j _. ring.
Qed.
Lemma congruence4_contract n C X p q r s : congruence4 n C X p q r s =
  contract n C (fun i => contract n C (fun j => contract n C (fun k => contract n C (X i j k) s) r) q) p.
Proof.
  unfold congruence4, contract. apply Sigma_ext. intros i _. rewrite <- Sigma_scale. apply Sigma_ext. intros j _.
  rewrite <- !Sigma_scale. apply Sigma_ext. intros k _. rewrite <- !Sigma_scale. apply Sigma_ext. intros l _. ring.
Qed.
Lemma congruence2_compose n m C1 C2 X p q : congruence2 m C2 (congruence2 n C1 X) p q = congruence2 n (product m C1 C2) X p q.
Proof.
  rewrite !congruence2_contract.
  rewrite (contract_ext m C2 C2 _ (contract n C1 (fun i => contract m C2 (contract n C1 (X i)) q))) ; auto.
  - rewrite contract_product. apply contract_ext; auto. intros i _. apply contract_product.
  - intros a _. rewrite (contract_ext m C2 C2 _ (fun b => contract n C1 (fun i => contract n C1 (X i) b) a)); auto.
    + rewrite (contract_swap n m C1 C2 (fun i b => contract n C1 (X i) b) a q). reflexivity.
    + intros b _. apply congruence2_contract.
Qed.
Lemma congruence2_ext n C C' X X' p q : (forall i x, i < n -> C i x = C' i x) -> (forall i j, i < n -> j < n -> X i j = X' i j) ->
  congruence2 n C X p q = congruence2 n C' X' p q.
Proof. intros H H'. unfold congruence2. apply Sigma_ext. intros i Hi. apply Sigma_ext. intros j Hj. rewrite !H, H' by auto. reflexivity. Qed.
Lemma congruence4_ext n C C' X X' p q r s : (forall i, i < n -> C i p = C' i p /\ C i q = C' i q /\ C i r = C' i r /\ C i s = C' i s) ->
  (forall i j k l, i < n -> j < n -> k < n -> l < n -> X i j k l = X' i j k l) ->
  congruence4 n C X p q r s = congruence4 n C' X' p q r s.
Proof.
  intros H H'. unfold congruence4. apply Sigma_ext. intros i Hi. apply Sigma_ext. intros j Hj. apply Sigma_ext. intros k Hk. apply Sigma_ext. intros l Hl.
  destruct (H i Hi) as (-> & _). destruct (H j Hj) as (_ & -> & _). destruct (H k Hk) as (_ & _ & -> & _). destruct (H l Hl) as (_ & _ & _ & ->). rewrite H' by auto. reflexivity.
Qed.
Lemma congruence4_compose n m C1 C2 X p q r s : congruence4 m C2 (congruence4 n C1 X) p q r s = congruence4 n (product m C1 C2) X p q r s.
Proof.
  rewrite !congruence4_contract.
  assert (E3 : forall f c s0, contract m C2 (fun d => contract n C1 (fun k => contract n C1 (f k) d) c) s0 =
                         contract n C1 (fun k => contract n (product m C1 C2) (f k) s0) c).
  { intros f c s0. rewrite (contract_swap n m C1 C2 (fun k d => contract n C1 (f k) d) c s0). apply contract_ext; auto. intros k _. apply contract_product. }
  assert (E2 : forall f b c0 d0, contract m C2 (fun c => contract m C2 (fun d => contract n C1 (fun j => contract n C1 (fun k => contract n C1 (f j k) d) c) b) d0) c0 =
      contract n C1 (fun j => contract n (product m C1 C2) (fun k => contract n (product m C1 C2) (f j k) d0) c0) b).
  { intros f b c0 d0. rewrite (contract_ext m C2 C2 _ (fun c => contract n C1 (fun j => contract n C1 (fun k => contract n (product m C1 C2) (f j k) d0) c) b)); [|auto|].
    - apply (E3 (fun j k => contract n (product m C1 C2) (f j k) d0) b c0).
    - intros c _. rewrite (contract_swap n m C1 C2 (fun j d => contract n C1 (fun k => contract n C1 (f j k) d) c) b d0). apply contract_ext; [auto|].
      intros j _. apply E3. }
  rewrite (contract_ext m C2 C2 _ (contract n C1 (fun i => contract n (product m C1 C2) (fun j => contract n (product m C1 C2) (fun k => contract n (product m C1 C2) (X i j k) s) r) q))); [|auto|].
  - apply contract_product.
  - intros a _. rewrite (contract_ext m C2 C2 _ (fun b => contract n C1 (fun i => contract n C1 (fun j => contract n (product m C1 C2) (fun k => contract n (product m C1 C2) (X i j k) s) r) b) a)); [|auto|].
    + apply (E3 (fun i j => contract n (product m C1 C2) (fun k => contract n (product m C1 C2) (X i j k) s) r) a q).
    + intros b _.
      rewrite (contract_ext m C2 C2 _ (fun c => contract m C2 (fun d => contract n C1 (fun i => contract n C1 (fun j => contract n C1 (fun k => contract n C1 (X i j k) d) c) b) a) s)); [|auto|].
      2:{ intros c _. apply contract_ext; auto. intros d _. apply congruence4_contract. }
      rewrite (contract_ext m C2 C2 _ (fun c => contract n C1 (fun i => contract m C2 (fun d => contract n C1 (fun j => contract n C1 (fun k => contract n C1 (X i j k) d) c) b) s) a)); [|auto|].
      2:{ intros c _. apply (contract_swap n m C1 C2 (fun i d => contract n C1 (fun j => contract n C1 (fun k => contract n C1 (X i j k) d) c) b) a s). }
      rewrite (contract_swap n m C1 C2 (fun i c => contract m C2 (fun d => contract n C1 (fun j => contract n C1 (fun k => contract n C1 (X i j k) d) c) b) s) a r).
      apply contract_ext; [auto|]. intros i _. apply (E2 (fun j k => X i j k)).
Qed.

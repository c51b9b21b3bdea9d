(** Binary density-matrix files (C25). *)
From Coq Require Import QArith Qcanon ZArith NArith Bool Lia.
From Verif Require Import Base Ham Asci Mem MemProofs Text TextProofs IO IOSpec FcidumpProofs.
Local Open Scope nat_scope.

(** strided positions *)
Definition loc2 (L : nat) (ij : nat * nat) : nat := let '(i, j) := ij in i + j * L.
Definition loc4 (L : nat) (x : nat * nat * (nat * nat)) : nat :=
  let '((i, j), (k, l)) := x in i + j * L + k * L * L + l * L * L * L.

Lemma loc4_pos4 L i j k l : loc4 L ((i, j), (k, l)) = pos4 L i j k l.
Proof. unfold loc4, pos4. nia. Qed.
Lemma loc2_pos2 L i j : loc2 L (i, j) = pos2 L i j.
Proof. unfold loc2, pos2. nia. Qed.

Lemma in_all2 n i j : In (i, j) (all2 n) <-> i < n /\ j < n.
Proof. unfold all2. rewrite in_prod_iff, !in_seq. lia. Qed.
Lemma in_all4 n i j k l : In ((i, j), (k, l)) (all4 n) <-> i < n /\ j < n /\ k < n /\ l < n.
Proof. unfold all4. rewrite in_prod_iff, !in_all2. lia. Qed.

Lemma nodup_prod {A B} (l : list A) (m : list B) : NoDup l -> NoDup m -> NoDup (list_prod l m).
Proof.
  intros Hl Hm. induction Hl as [|x l Nx Hl IH]; cbn [list_prod]; [constructor|].
  assert (Q : forall (a b : list (A * B)), NoDup a -> NoDup b -> (forall p, In p a -> ~ In p b) -> NoDup (a ++ b)).
  { induction a as [|p a IHa]; intros b Ha Hb D; auto. cbn. apply NoDup_cons_iff in Ha. destruct Ha as [Np Ha]. constructor.
    - rewrite in_app_iff. intros [H|H]; [auto|]. apply (D p); auto. left; auto.
    - apply IHa; auto. intros q Hq. apply D. right; auto. }
  apply Q; auto.
  - clear - Hm. induction Hm; cbn; constructor; auto. rewrite in_map_iff. intros (y & E & Hy). injection E as <-. auto.
  - intros [a b] H1 H2. apply in_map_iff in H1. destruct H1 as (y & E & _). injection E as <- <-.
    apply in_prod_iff in H2. tauto.
Qed.
Lemma nodup_map_inj {A B} (f : A -> B) l : NoDup l -> (forall x y, In x l -> In y l -> f x = f y -> x = y) -> NoDup (map f l).
Proof.
  induction 1 as [|x l Nx Hl IH]; intros H; cbn; constructor.
  - rewrite in_map_iff. intros (y & E & Hy). apply Nx. rewrite <- (H y x); auto; [right; auto|left; auto].
  - apply IH. intros; apply H; auto; right; auto.
Qed.
Lemma nodup2 n L : n <= L -> NoDup (map (loc2 L) (all2 n)).
Proof.
  intros H. apply nodup_map_inj; [apply nodup_prod; apply seq_NoDup|].
  intros [i j] [i' j'] A B. rewrite in_all2 in A, B. rewrite !loc2_pos2. unfold pos2. intros E.
  apply idx_inj in E; try lia. destruct E; subst; auto.
Qed.
Lemma pos4_inj L i j k l i' j' k' l' : i < L -> j < L -> k < L -> i' < L -> j' < L -> k' < L ->
  pos4 L i j k l = pos4 L i' j' k' l' -> i = i' /\ j = j' /\ k = k' /\ l = l'.
Proof.
  unfold pos4. intros H1 H2 H3 H4 H5 H6 E. apply idx_inj in E; [|exact H1|exact H4]. destruct E as [-> E].
  apply idx_inj in E; [|exact H2|exact H5]. destruct E as [-> E].
  apply idx_inj in E; [|exact H3|exact H6]. tauto.
Qed.
Lemma nodup4 n L : n <= L -> NoDup (map (loc4 L) (all4 n)).
Proof.
  intros H. apply nodup_map_inj; [apply nodup_prod; apply nodup_prod; apply seq_NoDup|].
  intros [[i j] [k l]] [[i' j'] [k' l']] A B. rewrite in_all4 in A, B. rewrite !loc4_pos4. intros E.
  apply pos4_inj in E; try lia. destruct E as (-> & -> & -> & ->); auto.
Qed.

(** loops that store [h i] at [loc i] *)
Lemma fill {I} (order : list I) (loc : I -> nat) (h : I -> Qc) (f : list Qc -> I -> res (list Qc)) (a : list Qc) :
  NoDup (map loc order) -> (forall i, In i order -> loc i < List.length a) ->
  (forall s i, In i order -> f s i = put s (loc i) (h i)) ->
  exists a', foldM order f a = Ok a' /\ List.length a' = List.length a /\
    (forall i, In i order -> nth (loc i) a' 0%Qc = h i) /\
    (forall p, ~ In p (map loc order) -> nth p a' 0%Qc = nth p a 0%Qc).
Proof.
  intros ND B F. apply (foldM_cells 0%Qc f loc (fun i _ => h i) order a _ eq_refl ND B).
  intros s i Hi L. rewrite F by auto. apply put_ok. rewrite L. auto.
Qed.

(** objects of [w] bytes *)
Lemma flat_len {A} (enc : A -> list N) w l : (forall v, In v l -> List.length (enc v) = w) -> List.length (flat_map enc l) = w * List.length l.
Proof.
  induction l as [|v l IH]; intros H; cbn [flat_map List.length]; [lia|]. rewrite app_length, IH by (intros; apply H; right; auto).
  rewrite H by (left; auto). lia.
Qed.
Lemma object_flat {A} (enc : A -> list N) w d l rest : (forall v, In v l -> List.length (enc v) = w) -> forall k, k < List.length l ->
  object_at w k (flat_map enc l ++ rest) = enc (nth k l d).
Proof.
  unfold object_at. induction l as [|v l IH]; intros H k Hk; cbn [List.length] in Hk; [lia|].
  cbn [flat_map]. rewrite <- app_assoc. destruct k as [|k]; cbn [nth].
  - rewrite Nat.mul_0_r. cbn [skipn]. rewrite firstn_app, H, Nat.sub_diag, firstn_O, app_nil_r by (left; auto).
    apply firstn_all2. rewrite H; auto. left; auto.
  - rewrite skipn_app, (H v) by (left; auto). rewrite skipn_all2 by (rewrite H by (left; auto); lia). cbn [app].
    replace (w * S k - w) with (w * k) by lia. apply IH; [intros; apply H; right; auto|lia].
Qed.

Section Rdm.
  Variables (enc : Qc -> list N) (dec : list N -> Qc) (norb : nat) (D1 : list Qc) (LD1 : nat) (D2 : list Qc) (LD2 : nat).
  Hypotheses (HD1 : forall i j, i < norb -> j < norb -> i + j * LD1 < List.length D1)
    (HD2 : forall i j k l, i < norb -> j < norb -> k < norb -> l < norb ->
       i + j * LD2 + k * LD2 * LD2 + l * LD2 * LD2 * LD2 < List.length D2)
    (Henc : forall v, In v D1 \/ In v D2 -> List.length (enc v) = 8 /\ dec (enc v) = v).

  Let d1 i j := nth (i + j * LD1) D1 0%Qc.
  Let d2 i j k l := nth (i + j * LD2 + k * LD2 * LD2 + l * LD2 * LD2 * LD2) D2 0%Qc.

  Lemma quad p : p < norb * (norb * (norb * norb)) ->
    exists i j k l, i < norb /\ j < norb /\ k < norb /\ l < norb /\ p = pos4 norb i j k l.
  Proof.
    intros H. assert (N0 : norb <> 0) by (intros E; rewrite E in H; lia).
    pose proof (Nat.div_mod p norb N0) as A1. pose proof (Nat.mod_upper_bound p norb N0) as B1. set (p1 := p / norb) in *.
    pose proof (Nat.div_mod p1 norb N0) as A2. pose proof (Nat.mod_upper_bound p1 norb N0) as B2. set (p2 := p1 / norb) in *.
    pose proof (Nat.div_mod p2 norb N0) as A3. pose proof (Nat.mod_upper_bound p2 norb N0) as B3. set (p3 := p2 / norb) in *.
    exists (p mod norb), (p1 mod norb), (p2 mod norb), p3.
    assert (L1 : p1 < norb * (norb * norb)) by (apply Nat.div_lt_upper_bound; auto).
    assert (L2 : p2 < norb * norb) by (apply Nat.div_lt_upper_bound; auto).
    assert (L3 : p3 < norb) by (apply Nat.div_lt_upper_bound; auto).
    unfold pos4. repeat split; auto. lia.
  Qed.
  Lemma pair p : p < norb * norb -> exists i j, i < norb /\ j < norb /\ p = pos2 norb i j.
  Proof.
    intros H. assert (N0 : norb <> 0) by (intros E; rewrite E in H; lia).
    exists (p mod norb), (p / norb). split; [apply Nat.mod_upper_bound; auto|]. split; [apply Nat.div_lt_upper_bound; auto|].
    unfold pos2. pose proof (Nat.div_mod p norb N0). lia.
  Qed.
  Lemma sq_le : norb * norb <= norb * norb * norb * norb.
  Proof. destruct norb; nia. Qed.

  Lemma write_rdm_ok : exists one two, List.length one = norb * norb /\ List.length two = norb * norb * norb * norb /\
    write_rdms_binary enc norb D1 LD1 D2 LD2 = Ok (to_bytes 4 (N.of_nat norb mod 2 ^ 32) ++ flat_map enc one ++ flat_map enc two) /\
    (forall i j, i < norb -> j < norb -> nth (i + j * norb) one 0%Qc = d1 i j) /\
    (forall i j k l, i < norb -> j < norb -> k < norb -> l < norb ->
       nth (i + j * norb + k * norb * norb + l * norb * norb * norb) two 0%Qc = d2 i j k l) /\
    (forall v, In v one -> In v D1) /\ (forall v, In v two -> In v D2).
  Proof.
    unfold write_rdms_binary. set (raw0 := repeat 0%Qc (norb * norb * norb * norb)).
    assert (L0 : List.length raw0 = norb * norb * norb * norb) by apply repeat_length.
    destruct (fill (all2 norb) (loc2 norb) (fun ij => let '(i, j) := ij in d1 i j)
      (fun raw ij => let '(i, j) := ij in do v <- at_ D1 (i + j * LD1); put raw (i + j * norb) v) raw0) as (raw1 & R1 & L1 & N1 & _).
    { apply nodup2. lia. }
    { intros [i j] H. rewrite in_all2 in H. rewrite L0, loc2_pos2. pose proof (idx_lt norb i j norb) as X. unfold pos2. pose proof sq_le. lia. }
    { intros s [i j] H. rewrite in_all2 in H. rewrite (at_ok D1 _ 0%Qc) by (apply HD1; lia). reflexivity. }
    rewrite R1. cbn [bind]. rewrite slice_ok by (rewrite ?L1, ?L0; pose proof sq_le; lia). cbn [bind]. rewrite Nat.sub_0_r. cbn [skipn].
    destruct (fill (all4 norb) (loc4 norb) (fun x => let '((i, j), (k, l)) := x in d2 i j k l)
      (fun raw ijkl => let '((i, j), (k, l)) := ijkl in
         do v <- at_ D2 (i + j * LD2 + k * LD2 * LD2 + l * LD2 * LD2 * LD2);
         put raw (i + j * norb + k * norb * norb + l * norb * norb * norb) v) raw1) as (raw2 & R2 & L2 & N2 & _).
    { apply nodup4. lia. }
    { intros [[i j] [k l]] H. rewrite in_all4 in H. rewrite L1, L0, loc4_pos4. pose proof (pos4_lt norb i j k l). nia. }
    { intros s [[i j] [k l]] H. rewrite in_all4 in H. rewrite (at_ok D2 _ 0%Qc) by (apply HD2; lia). reflexivity. }
    rewrite R2. cbn [bind]. exists (firstn (norb * norb) raw1), raw2.
    assert (M1 : forall i j, i < norb -> j < norb -> nth (i + j * norb) (firstn (norb * norb) raw1) 0%Qc = d1 i j).
    { intros i j Hi Hj. rewrite nth_firstn by (pose proof (idx_lt norb i j norb); nia). apply (N1 (i, j)). apply in_all2. auto. }
    assert (M2 : forall i j k l, i < norb -> j < norb -> k < norb -> l < norb ->
       nth (i + j * norb + k * norb * norb + l * norb * norb * norb) raw2 0%Qc = d2 i j k l).
    { intros i j k l Hi Hj Hk Hl. apply (N2 ((i, j), (k, l))). apply in_all4. auto. }
    assert (LF : List.length (firstn (norb * norb) raw1) = norb * norb).
    { rewrite firstn_length, L1, L0. pose proof sq_le. lia. }
    split; auto. split; [congruence|]. split; auto. split; auto. split; auto. split.
    - intros v Hv. destruct (In_nth _ _ 0%Qc Hv) as (p & Hp & <-). rewrite LF in Hp. destruct (pair p Hp) as (i & j & Hi & Hj & ->).
      unfold pos2. rewrite (Nat.mul_comm norb j). rewrite M1 by auto. apply nth_In. auto.
    - intros v Hv. destruct (In_nth _ _ 0%Qc Hv) as (p & Hp & <-). rewrite L2, L1, L0 in Hp.
      destruct (quad p ltac:(lia)) as (i & j & k & l & Hi & Hj & Hk & Hl & ->).
      rewrite <- loc4_pos4. unfold loc4. rewrite M2 by auto. apply nth_In. auto.
  Qed.

  Lemma c25_round_trip O0 M1 T0 M2 : norb <= M1 -> norb <= M2 ->
    (forall i j, i < norb -> j < norb -> i + j * M1 < List.length O0) ->
    (forall i j k l, i < norb -> j < norb -> k < norb -> l < norb ->
       i + j * M2 + k * M2 * M2 + l * M2 * M2 * M2 < List.length T0) ->
    exists file O1 T1, write_rdms_binary enc norb D1 LD1 D2 LD2 = Ok file /\
    read_rdms_binary dec (Some file) norb O0 M1 T0 M2 = Ok (O1, T1) /\
    List.length O1 = List.length O0 /\ List.length T1 = List.length T0 /\
    (forall i j, i < norb -> j < norb -> nth (i + j * M1) O1 0%Qc = d1 i j) /\
    (forall i j k l, i < norb -> j < norb -> k < norb -> l < norb ->
       nth (i + j * M2 + k * M2 * M2 + l * M2 * M2 * M2) T1 0%Qc = d2 i j k l) /\
    (forall p, (forall i j, i < norb -> j < norb -> p <> i + j * M1) -> nth p O1 0%Qc = nth p O0 0%Qc) /\
    (forall p, (forall i j k l, i < norb -> j < norb -> k < norb -> l < norb ->
       p <> i + j * M2 + k * M2 * M2 + l * M2 * M2 * M2) -> nth p T1 0%Qc = nth p T0 0%Qc).
  Proof.
    intros HM1 HM2 HO HT. destruct write_rdm_ok as (one & two & Lo & Lt & W & No & Nt & Io & It).
    eexists. unfold read_rdms_binary.
    assert (B1 : forall i, In i (all2 norb) -> loc2 M1 i < List.length O0).
    { intros [i j] H. rewrite in_all2 in H. apply HO; tauto. }
    assert (B2 : forall i, In i (all4 norb) -> loc4 M2 i < List.length T0).
    { intros [[i j] [k l]] H. rewrite in_all4 in H. apply HT; tauto. }
    destruct (fill (all2 norb) (loc2 M1) (fun _ => 0%Qc) (fun O ij => let '(i, j) := ij in put O (i + j * M1) 0%Qc) O0)
      as (Oa & Ra & La & _ & Ua); auto using nodup2. { intros s [i j] _. reflexivity. }
    destruct (fill (all4 norb) (loc4 M2) (fun _ => 0%Qc) (fun T ijkl => let '((i, j), (k, l)) := ijkl in
       put T (i + j * M2 + k * M2 * M2 + l * M2 * M2 * M2) 0%Qc) T0)
      as (Ta & Rb & Lb & _ & Ub); auto using nodup4. { intros s [[i j] [k l]] _. reflexivity. }
    rewrite Ra. cbn [bind]. rewrite Rb. cbn [bind].
    assert (E1 : forall v, In v one -> List.length (enc v) = 8) by (intros; apply Henc; auto).
    assert (E2 : forall v, In v two -> List.length (enc v) = 8) by (intros; apply Henc; auto).
    set (buf := flat_map enc one ++ skipn (8 * (norb * norb)) (repeat 0%N (8 * (norb * norb * norb * norb)))).
    destruct (fill (all2 norb) (loc2 M1) (fun ij => let '(i, j) := ij in d1 i j)
       (fun O ij => let '(i, j) := ij in put O (i + j * M1) (dec (object_at 8 (i + j * norb) buf))) Oa)
      as (Ob & Rc & Lc & Nc & Uc); auto using nodup2.
    { rewrite La. auto. }
    { intros s [i j] H. rewrite in_all2 in H. unfold buf. destruct H as [Hi Hj].
      assert (X : i + j * norb < List.length one) by (rewrite Lo; pose proof (idx_lt norb i j norb); nia).
      rewrite (object_flat enc 8 0%Qc) by auto. rewrite No by auto. cbn [loc2]. f_equal. apply Henc. left. apply nth_In. auto. }
    destruct (fill (all4 norb) (loc4 M2) (fun x => let '((i, j), (k, l)) := x in d2 i j k l)
       (fun T ijkl => let '((i, j), (k, l)) := ijkl in
        put T (i + j * M2 + k * M2 * M2 + l * M2 * M2 * M2)
          (dec (object_at 8 (i + j * norb + k * norb * norb + l * norb * norb * norb) (flat_map enc two)))) Ta)
      as (Tb & Rd & Ld & Nd & Ud); auto using nodup4.
    { rewrite Lb. auto. }
    { intros s [[i j] [k l]] H. rewrite in_all4 in H. destruct H as (Hi & Hj & Hk & Hl).
      assert (X : i + j * norb + k * norb * norb + l * norb * norb * norb < List.length two).
      { pose proof (loc4_pos4 norb i j k l) as P. unfold loc4 in P. rewrite P, Lt. pose proof (pos4_lt norb i j k l). nia. }
      rewrite <- (app_nil_r (flat_map enc two)), (object_flat enc 8 0%Qc) by auto. rewrite Nt by auto. cbn [loc4]. f_equal.
      apply Henc. right. apply nth_In. auto. }
    exists Ob, Tb. split; [exact W|]. split.
    { rewrite take_bytes_app by apply to_bytes_len. cbn [bind].
      rewrite of_to_bytes by (change (256 ^ N.of_nat 4)%N with (2 ^ 32)%N; apply N.mod_lt; discriminate).
      rewrite N.eqb_refl. cbn [negb]. unfold read_into.
      assert (F1 : List.length (flat_map enc one) = 8 * (norb * norb)) by (rewrite <- Lo; apply flat_len; auto).
      assert (F2 : List.length (flat_map enc two) = 8 * (norb * norb * norb * norb)) by (rewrite <- Lt; apply flat_len; auto).
      replace (Nat.min (8 * (norb * norb)) (List.length (flat_map enc one ++ flat_map enc two))) with (8 * (norb * norb))
        by (rewrite app_length, F1; lia).
      rewrite firstn_app, skipn_app, F1, Nat.sub_diag, firstn_O, app_nil_r. cbn [skipn].
      rewrite (firstn_all2 (flat_map enc one)) by (rewrite F1; apply Nat.le_refl). rewrite (skipn_all2 (flat_map enc one)) by (rewrite F1; apply Nat.le_refl). cbn [app]. fold buf. rewrite Rc. cbn [bind].
      rewrite firstn_all2 by lia. rewrite F2, Nat.min_id.
      rewrite (skipn_all2 buf), app_nil_r. 2:{ unfold buf. rewrite app_length, F1, skipn_length, repeat_length. pose proof sq_le. lia. }
      rewrite Rd. reflexivity. }
    split; [congruence|]. split; [congruence|].
    split; [intros i j Hi Hj; apply (Nc (i, j)); apply in_all2; auto|].
    split; [intros i j k l Hi Hj Hk Hl; apply (Nd ((i, j), (k, l))); apply in_all4; auto|].
    split; intros p H.
    - assert (~ In p (map (loc2 M1) (all2 norb))).
      { rewrite in_map_iff. intros ([i j] & E & I). rewrite in_all2 in I. apply (H i j); try tauto. symmetry. exact E. }
      rewrite Uc, Ua; auto.
    - assert (~ In p (map (loc4 M2) (all4 norb))).
      { rewrite in_map_iff. intros ([[i j] [k l]] & E & I). rewrite in_all4 in I. apply (H i j k l); try tauto. symmetry. exact E. }
      rewrite Ud, Ub; auto.
  Qed.

End Rdm.

Lemma zero2 n M O0 : n <= M -> (forall i j, i < n -> j < n -> i + j * M < List.length O0) ->
  exists O1, foldM (all2 n) (fun O ij => let '(i, j) := ij in put O (i + j * M) 0%Qc) O0 = Ok O1.
Proof.
  intros H B. destruct (fill (all2 n) (loc2 M) (fun _ => 0%Qc) (fun O ij => let '(i, j) := ij in put O (i + j * M) 0%Qc) O0)
      as (Oa & Ra & _); auto using nodup2; eauto.
  - intros [i j] I. rewrite in_all2 in I. apply B; tauto.
  - intros s [i j] _. reflexivity.
Qed.
Lemma zero4 n M T0 : n <= M -> (forall i j k l, i < n -> j < n -> k < n -> l < n ->
       i + j * M + k * M * M + l * M * M * M < List.length T0) ->
  exists T1, foldM (all4 n) (fun T ijkl => let '((i, j), (k, l)) := ijkl in
       put T (i + j * M + k * M * M + l * M * M * M) 0%Qc) T0 = Ok T1.
Proof.
  intros H B. destruct (fill (all4 n) (loc4 M) (fun _ => 0%Qc) (fun T ijkl => let '((i, j), (k, l)) := ijkl in
       put T (i + j * M + k * M * M + l * M * M * M) 0%Qc) T0)
      as (Oa & Ra & _); auto using nodup4; eauto.
  - intros [[i j] [k l]] I. rewrite in_all4 in I. apply B; tauto.
  - intros s [[i j] [k l]] _. reflexivity.
Qed.
Lemma c25_reject enc dec norb D1 LD1 D2 LD2 file n' O0 M1 T0 M2 :
  write_rdms_binary enc norb D1 LD1 D2 LD2 = Ok file ->
  norb <> n' -> (N.of_nat norb < 2 ^ 32)%N -> (N.of_nat n' < 2 ^ 32)%N -> n' <= M1 -> n' <= M2 ->
  (forall i j, i < n' -> j < n' -> i + j * M1 < List.length O0) ->
  (forall i j k l, i < n' -> j < n' -> k < n' -> l < n' ->
       i + j * M2 + k * M2 * M2 + l * M2 * M2 * M2 < List.length T0) ->
  read_rdms_binary dec (Some file) n' O0 M1 T0 M2 = Err Throw /\
  read_rdms_binary dec None n' O0 M1 T0 M2 = Err Throw.
Proof.
  intros W Ne B B' H1 H2 HO HT. unfold write_rdms_binary in W.
  destruct (foldM (all2 norb) _ _) as [r1|]; cbn [bind] in W; [|discriminate].
  destruct (slice_ r1 0 (norb * norb)) as [one|]; cbn [bind] in W; [|discriminate].
  destruct (foldM (all4 norb) _ _) as [r2|]; cbn [bind] in W; [|discriminate].
  assert (X : exists rest, file = to_bytes 4 (N.of_nat norb mod 2 ^ 32) ++ rest) by (eexists; injection W as W; symmetry; exact W).
  clear W. destruct X as (rest & ->).
  unfold read_rdms_binary. destruct (zero2 n' M1 O0 H1 HO) as (O1 & ->). cbn [bind].
  destruct (zero4 n' M2 T0 H2 HT) as (T1 & ->). cbn [bind].
  rewrite take_bytes_app by apply to_bytes_len. cbn [bind].
  rewrite of_to_bytes by (change (256 ^ N.of_nat 4)%N with (2 ^ 32)%N; apply N.mod_lt; discriminate).
  split; auto. rewrite !N.mod_small by auto. destruct (N.eqb_spec (N.of_nat norb) (N.of_nat n')); [|reflexivity].
  exfalso. apply Ne. lia.
Qed.

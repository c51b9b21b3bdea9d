(** Extrapolation (C49): what the solver gets, what is returned, optimality. *)
From Coq Require Import QArith Qcanon Bool Lia.
From Verif Require Import Base Sums Ham Asci HamProofs Mem MemProofs Dense DenseSpec DenseProofs FockMatProofs RotProofs LinRespProofs ExpandProofs Diis DiisSpec DiisProofs.
Local Open Scope nat_scope.

Definition same_sizes (nv ne : nat) (ps : list (list Qc * list Qc)) : Prop := forall p, In p ps -> length (fst p) = nv /\ length (snd p) = ne.
Lemma extrapolate_ok gelss nmax ps nv ne : same_sizes nv ne ps -> ps <> [] -> let k := length ps in
  exists B b, (forall i j, i < k + 1 -> j < k + 1 -> at2 B (k + 1) i j = bordered_gram ne (map snd ps) i j) /\
    length b = k + 1 /\ (forall i, i < k + 1 -> nth i b 0%Qc = if i =? k then 1%Qc else 0%Qc) /\
    (forall e, gelss (k + 1) B b = Err e -> extrapolate gelss (mk_diis nmax ps) = Err e) /\
    forall c, gelss (k + 1) B b = Ok c -> k <= length c ->
      exists x, extrapolate gelss (mk_diis nmax ps) = Ok x /\ length x = nv /\
        forall m, m < nv -> nth m x 0%Qc = combination (fun i => nth i c 0%Qc) (map fst ps) m.
Proof.
  intros Hps Hne k. destruct (gram_build ps nv ne Hps) as [B [EB [LB HB]]]. fold k in EB, LB, HB.
  exists B, (upd (repeat 0%Qc (k + 1)) k 1%Qc). split; [exact HB|]. split; [rewrite upd_length, repeat_length; reflexivity|]. split.
  { intros i Hi. rewrite upd_nth by (rewrite repeat_length; lia). rewrite nth_repeat. reflexivity. }
  unfold extrapolate. cbn [diis_pairs]. fold k. cbv zeta.
  match goal with |- context [bind ?m _] => match type of EB with bind ?m' ?f = _ => destruct m' as [B1|] eqn:E1; cbn [bind] in EB |- *; [|discriminate] end end.
  rewrite EB. cbn [bind]. rewrite put_ok by (rewrite repeat_length; lia). cbn [bind]. split.
  - intros e He. rewrite He. reflexivity.
  - intros c Hc Lc. rewrite Hc. cbn [bind]. assert (Hk : 0 < k) by (unfold k; destruct ps; [congruence|cbn; lia]).
    rewrite (at_ok ps 0 ([], [])) by exact Hk. cbn [bind]. destruct (Hps _ (nth_In ps ([], []) Hk)) as [Hv _]. rewrite Hv.
    exact (combine_loop ps nv ne Hps c Lc).
Qed.
Lemma extrapolate_empty gelss nmax : exists B b, forall c, gelss 1 B b = Ok c -> extrapolate gelss (mk_diis nmax []) = Err UB.
Proof. eexists. eexists. intros c H. unfold extrapolate. cbn [diis_pairs length seq foldM bind put repeat Nat.add Nat.mul]. rewrite H. reflexivity. Qed.

(** * inner products and projections *)
Local Open Scope Qc_scope.
Definition ip (n : nat) (u v : nat -> Qc) : Qc := Sigma n (fun m => u m * v m).
Lemma ip_comm n u v : ip n u v = ip n v u. Proof. apply Sigma_ext. intros. ring. Qed.
Lemma ip_sub n u v w : ip n (fun m => u m - v m) w = ip n u w - ip n v w.
Proof. unfold ip. rewrite <- Sigma_minus. apply Sigma_ext. intros. ring. Qed.
Lemma ip_add n u v w : ip n (fun m => u m + v m) w = ip n u w + ip n v w.
Proof. unfold ip. rewrite <- Sigma_plus. apply Sigma_ext. intros. ring. Qed.
Lemma ip_scale n c u w : ip n (fun m => c * u m) w = c * ip n u w.
Proof. unfold ip. rewrite <- Sigma_scale. apply Sigma_ext. intros. ring. Qed.
Lemma ip_ext n u u' v : (forall m, (m < n)%nat -> u m = u' m) -> ip n u v = ip n u' v.
Proof. intros H. apply Sigma_ext. intros m Hm. rewrite H by exact Hm. reflexivity. Qed.
Lemma ip_ext_r n u v v' : (forall m, (m < n)%nat -> v m = v' m) -> ip n u v = ip n u v'.
Proof. intros H. apply Sigma_ext. intros m Hm. rewrite H by exact Hm. reflexivity. Qed.
Lemma ip_lin n k (a : nat -> Qc) d w : ip n (fun m => Sigma k (fun i => a i * d i m)) w = Sigma k (fun i => a i * ip n (d i) w).
Proof.
  unfold ip. transitivity (Sigma n (fun m => Sigma k (fun i => a i * (d i m * w m)))).
  - apply Sigma_ext. intros m _. rewrite <- Sigma_scale_r. apply Sigma_ext. intros. ring.
  - rewrite Sigma_swap. apply Sigma_ext. intros i _. rewrite Sigma_scale. reflexivity.
Qed.
Lemma square_nonneg (x : Qc) : 0 <= x * x.
Proof. unfold Qcle, Qcmult. cbn [this Q2Qc]. rewrite !Qred_correct. destruct (Qlt_le_dec (this x) 0) as [H|H].
  - setoid_replace (this x * this x)%Q with ((- this x) * (- this x))%Q by ring. apply Qmult_le_0_compat; (apply Qopp_le_compat in H || apply Qlt_le_weak, Qopp_le_compat in H; exact H).
  - apply Qmult_le_0_compat; exact H.
Qed.
Lemma Sigma_nonneg n f : (forall i, (i < n)%nat -> 0 <= f i) -> 0 <= Sigma n f.
Proof.
  intros H. rewrite <- (Sigma_0 n). unfold Sigma. apply sum_nonneg_le. intros i Hi. apply in_seq in Hi. apply H. lia.
Qed.
Lemma Sigma_zero n : forall f, (forall i, (i < n)%nat -> 0 <= f i) -> Sigma n f = 0 -> forall i, (i < n)%nat -> f i = 0.
Proof.
  induction n as [|n IH]; intros f H E i Hi; [lia|]. replace (S n) with (n + 1)%nat in E by lia. rewrite Sigma_split in E.
  assert (E1 : Sigma 1 (fun j => f (j + n)%nat) = f n) by (unfold Sigma; cbn [seq sum Nat.add]; ring). rewrite E1 in E.
  assert (P1 : 0 <= Sigma n f) by (apply Sigma_nonneg; intros; apply H; lia). assert (P2 : 0 <= f n) by (apply H; lia).
  assert (Z1 : Sigma n f = 0).
  { apply Qcle_antisym; [|exact P1]. rewrite <- E. rewrite <- (Qcplus_0_r (Sigma n f)) at 1. apply Qcplus_le_compat; [apply Qcle_refl|exact P2]. }
  assert (Z2 : f n = 0). { rewrite Z1 in E. rewrite <- E. ring. }
  destruct (Nat.eq_dec i n) as [->|]; [exact Z2|]. apply IH; [intros; apply H; lia|exact Z1|lia].
Qed.
Lemma square_zero (x : Qc) : x * x = 0 -> x = 0.
Proof. intros H. destruct (Qcmult_integral _ _ H); assumption. Qed.
Lemma ip_self_zero n u v : ip n u u = 0 -> ip n v u = 0.
Proof.
  intros H. transitivity (Sigma n (fun _ => 0)); [|apply Sigma_0]. apply Sigma_ext. intros m Hm.
  rewrite (square_zero (u m)); [ring|]. apply (Sigma_zero n (fun m => u m * u m)); [intros; apply square_nonneg|exact H|exact Hm].
Qed.
Lemma projection n d k : forall x, exists a : nat -> Qc, forall j, (j < k)%nat -> ip n (fun m => x m - Sigma k (fun i => a i * d i m)) (d j) = 0.
Proof.
  induction k as [|k IH]; intros x; [exists (fun _ => 0); intros; lia|].
  destruct (IH x) as [a Ha]. destruct (IH (d k)) as [b Hb].
  set (x' := fun m => x m - Sigma k (fun i => a i * d i m)) in *. set (u := fun m => d k m - Sigma k (fun i => b i * d i m)) in *.
  set (t := if Qc_eq_dec (ip n u u) 0 then 0 else ip n x' u / ip n u u).
  set (a' := fun i => if (i <? k)%nat then a i - t * b i else t). exists a'.
  assert (Ex : forall m, x m - Sigma (S k) (fun i => a' i * d i m) = x' m - t * u m).
  { intros m. replace (S k) with (k + 1)%nat by lia. rewrite Sigma_split.
    assert (E1 : Sigma 1 (fun j => a' (j + k)%nat * d (j + k)%nat m) = t * d k m).
    { unfold Sigma. cbn [seq sum Nat.add]. unfold a'. rewrite Nat.ltb_irrefl. ring. }
    rewrite E1. rewrite (Sigma_ext k _ (fun i => a i * d i m - t * (b i * d i m))).
    2:{ intros i Hi. unfold a'. replace (i <? k)%nat with true by (symmetry; apply Nat.ltb_lt; exact Hi). ring. }
    rewrite Sigma_minus, Sigma_scale. unfold x', u. ring. }
  assert (Hu : ip n (fun m => x' m - t * u m) u = 0).
  { rewrite ip_sub, ip_scale. unfold t. destruct (Qc_eq_dec (ip n u u) 0) as [Z|Z].
    - rewrite (ip_self_zero n u x' Z). ring.
    - field. exact Z. }
  assert (Hj : forall j, (j < k)%nat -> ip n (fun m => x' m - t * u m) (d j) = 0).
  { intros j Hj. rewrite ip_sub, ip_scale. unfold x', u. rewrite Ha, Hb by exact Hj. ring. }
  intros j Hjk. rewrite (ip_ext n _ (fun m => x' m - t * u m)) by (intros; apply Ex).
  destruct (Nat.eq_dec j k) as [->|]; [|apply Hj; lia].
  rewrite (ip_ext_r n _ (d k) (fun m => u m + Sigma k (fun i => b i * d i m))) by (intros; unfold u; ring).
  rewrite ip_comm, ip_add, ip_lin. rewrite (ip_comm n u), Hu.
  rewrite (Sigma_ext k _ (fun _ => 0)), Sigma_0; [ring|]. intros i Hi. rewrite ip_comm, Hj by exact Hi. ring.
Qed.

(** the bordered system has a solution *)
Lemma Sigma_S_first k f : Sigma (S k) f = f 0%nat + Sigma k (fun i => f (S i)).
Proof.
  replace (S k) with (1 + k)%nat by lia. rewrite Sigma_split. f_equal; [unfold Sigma; cbn [seq sum]; ring|].
  apply Sigma_ext. intros i _. f_equal. lia.
Qed.
Lemma constrained n e k : exists c : nat -> Qc, exists mu, Sigma (S k) c = 1 /\
  forall i, (i < S k)%nat -> ip n (fun m => Sigma (S k) (fun j => c j * e j m)) (e i) = mu.
Proof.
  destruct (projection n (fun i m => e (S i) m - e 0%nat m) k (e 0%nat)) as [a Ha].
  set (c := fun i => match i with O => 1 + Sigma k a | S j => - a j end).
  set (r := fun m => Sigma (S k) (fun j => c j * e j m)). exists c, (ip n r (e 0%nat)).
  assert (Er : forall m, r m = e 0%nat m - Sigma k (fun i => a i * (e (S i) m - e 0%nat m))).
  { intros m. unfold r. rewrite Sigma_S_first. cbn [c].
    rewrite (Sigma_ext k (fun i => a i * (e (S i) m - e 0%nat m)) (fun i => a i * e (S i) m - a i * e 0%nat m)) by (intros; ring).
    rewrite Sigma_minus, Sigma_scale_r. rewrite (Sigma_ext k (fun i => - a i * e (S i) m) (fun i => - (a i * e (S i) m))) by (intros; ring).
    rewrite Sigma_opp. ring. }
  split.
  { rewrite Sigma_S_first. cbn [c]. rewrite Sigma_opp. ring. }
  intros i Hi. destruct i as [|i]; [reflexivity|]. fold r.
  assert (Z : ip n r (fun m => e (S i) m - e 0%nat m) = 0).
  { rewrite (ip_ext n r _ _ (fun m _ => Er m)). apply (Ha i). lia. }
  rewrite ip_comm in Z. rewrite ip_sub in Z. rewrite (ip_comm n (e (S i))), (ip_comm n (e 0%nat)) in Z.
  replace (ip n r (e (S i))) with ((ip n r (e (S i)) - ip n r (e 0%nat)) + ip n r (e 0%nat)) by ring. rewrite Z. ring.
Qed.
Lemma optimal n e k c mu : Sigma k c = 1 -> (forall i, (i < k)%nat -> ip n (fun m => Sigma k (fun j => c j * e j m)) (e i) = mu) ->
  forall c', Sigma k c' = 1 -> norm2 n (fun m => Sigma k (fun j => c j * e j m)) <= norm2 n (fun m => Sigma k (fun j => c' j * e j m)).
Proof.
  intros Hc Hi c' Hc'. set (r := fun m => Sigma k (fun j => c j * e j m)) in *. set (s := fun m => Sigma k (fun j => c' j * e j m)).
  change (ip n r r <= ip n s s).
  assert (P : forall c1, Sigma k c1 = 1 -> ip n (fun m => Sigma k (fun j => c1 j * e j m)) r = mu).
  { intros c1 H1. rewrite ip_lin. rewrite (Sigma_ext k _ (fun i => c1 i * mu)).
    2:{ intros i Hik. rewrite ip_comm, Hi by exact Hik. reflexivity. }
    rewrite Sigma_scale_r, H1. ring. }
  assert (Prr : ip n r r = mu) by (apply (P c); exact Hc). assert (Psr : ip n s r = mu) by (apply (P c'); exact Hc').
  assert (E : ip n s s = ip n r r + ip n (fun m => s m - r m) (fun m => s m - r m)).
  { rewrite ip_sub. rewrite (ip_comm n s (fun m => s m - r m)), (ip_comm n r (fun m => s m - r m)), !ip_sub. rewrite (ip_comm n r s), Psr, Prr. ring. }
  rewrite E. rewrite <- (Qcplus_0_r (ip n r r)) at 1. apply Qcplus_le_compat; [apply Qcle_refl|]. apply Sigma_nonneg. intros. apply square_nonneg.
Qed.
(** a least squares solution of the bordered system gives the optimal combination *)
Lemma bordered_optimal n es B b c : let k := length es in es <> [] -> length c = (k + 1)%nat ->
  (forall i j, (i < k + 1)%nat -> (j < k + 1)%nat -> B i j = bordered_gram n es i j) ->
  (forall i, (i < k + 1)%nat -> b i = if (i =? k)%nat then 1 else 0) ->
  (forall c', residual (k + 1) B b (fun i => nth i c 0) <= residual (k + 1) B b c') ->
  Sigma k (fun i => nth i c 0) = 1 /\
  forall c', Sigma k c' = 1 -> norm2 n (combination (fun i => nth i c 0) es) <= norm2 n (combination c' es).
Proof.
  intros k Hne Lc HB Hb Hmin. set (e := fun i m => nth m (nth i es []) 0).
  assert (Hk : (0 < k)%nat) by (unfold k; destruct es; [congruence|cbn; lia]).
  assert (Row : forall (f : nat -> Qc) i, (i < k)%nat -> Sigma (k + 1) (fun j => B i j * f j) = ip n (fun m => Sigma k (fun j => f j * e j m)) (e i) + f k).
  { intros f i Hi. rewrite Sigma_split. rewrite ip_lin. f_equal.
    - apply Sigma_ext. intros j Hj. rewrite HB by lia. unfold bordered_gram. fold k.
      replace (i =? k)%nat with false by (symmetry; apply Nat.eqb_neq; lia). replace (j =? k)%nat with false by (symmetry; apply Nat.eqb_neq; lia).
      change (dot n (nth i es []) (nth j es [])) with (ip n (e i) (e j)). rewrite ip_comm. ring.
    - unfold Sigma. cbn [seq sum Nat.add]. rewrite HB by lia. unfold bordered_gram. fold k. rewrite Nat.eqb_refl.
      replace (i =? k)%nat with false by (symmetry; apply Nat.eqb_neq; lia). ring. }
  assert (Last : forall f : nat -> Qc, Sigma (k + 1) (fun j => B k j * f j) = Sigma k f).
  { intros f. rewrite Sigma_split. rewrite (Sigma_ext k _ f).
    - unfold Sigma at 2. cbn [seq sum Nat.add]. rewrite HB by lia. unfold bordered_gram. fold k. rewrite Nat.eqb_refl. ring.
    - intros j Hj. rewrite HB by lia. unfold bordered_gram. fold k. rewrite Nat.eqb_refl. replace (j =? k)%nat with false by (symmetry; apply Nat.eqb_neq; lia). ring. }
  destruct (constrained n e (k - 1)) as [s [mu [Hs Hmu]]]. replace (S (k - 1)) with k in Hs, Hmu by lia.
  set (s' := fun i => if (i =? k)%nat then - mu else s i).
  assert (R0 : residual (k + 1) B b s' = 0).
  { unfold residual, norm2. rewrite (Sigma_ext (k + 1) _ (fun _ => 0)), Sigma_0; [reflexivity|]. intros i Hi.
    assert (Z : Sigma (k + 1) (fun j => B i j * s' j) - b i = 0).
    { assert (Es : forall f : nat -> Qc, (Sigma k (fun j => f j * s' j) = Sigma k (fun j => f j * s j))).
      { intros f. apply Sigma_ext. intros j Hj. unfold s'. replace (j =? k)%nat with false by (symmetry; apply Nat.eqb_neq; lia). reflexivity. }
      destruct (Nat.eq_dec i k) as [->|Hik].
      - rewrite Last, Hb by lia. rewrite Nat.eqb_refl. rewrite (Sigma_ext k s' s). 2:{ intros j Hj. unfold s'. replace (j =? k)%nat with false by (symmetry; apply Nat.eqb_neq; lia). reflexivity. }
        rewrite Hs. ring.
      - rewrite Row, Hb by lia. replace (i =? k)%nat with false by (symmetry; apply Nat.eqb_neq; lia).
        rewrite (ip_ext n _ (fun m => Sigma k (fun j => s j * e j m))).
        2:{ intros m _. apply Sigma_ext. intros j Hj. unfold s'. replace (j =? k)%nat with false by (symmetry; apply Nat.eqb_neq; lia). reflexivity. }
        rewrite Hmu by lia. unfold s'. rewrite Nat.eqb_refl. ring. }
    rewrite Z. ring. }
  assert (R1 : residual (k + 1) B b (fun i => nth i c 0) = 0).
  { apply Qcle_antisym; [pose proof (Hmin s') as Q; rewrite R0 in Q; exact Q|]. apply Sigma_nonneg. intros. apply square_nonneg. }
  assert (Rows : forall i, (i < k + 1)%nat -> Sigma (k + 1) (fun j => B i j * nth j c 0) - b i = 0).
  { intros i Hi. apply square_zero. apply (Sigma_zero (k + 1) (fun i => (Sigma (k + 1) (fun j => B i j * nth j c 0) - b i) * (Sigma (k + 1) (fun j => B i j * nth j c 0) - b i))); [intros; apply square_nonneg|exact R1|exact Hi]. }
  assert (S1 : Sigma k (fun i => nth i c 0) = 1).
  { pose proof (Rows k ltac:(lia)) as H. rewrite (Last (fun j => nth j c 0)), Hb, Nat.eqb_refl in H by lia.
    replace (Sigma k (fun i => nth i c 0)) with ((Sigma k (fun i => nth i c 0) - 1) + 1) by ring. rewrite H. ring. }
  split; [exact S1|]. intros c' Hc'.
  change (norm2 n (fun m => Sigma k (fun j => nth j c 0 * e j m)) <= norm2 n (fun m => Sigma k (fun j => c' j * e j m))).
  apply (optimal n e k (fun i => nth i c 0) (- nth k c 0)); auto.
  intros i Hi. pose proof (Rows i ltac:(lia)) as H. rewrite (Row (fun j => nth j c 0)), Hb in H by lia.
  replace (i =? k)%nat with false in H by (symmetry; apply Nat.eqb_neq; lia).
  match goal with |- ?X = _ => replace X with (X + nth k c 0 - 0 - nth k c 0) by ring end. rewrite H. ring.
Qed.

(** * put together *)
Local Open Scope nat_scope.
Lemma lastn_sizes nv ne n h : same_sizes nv ne h -> same_sizes nv ne (lastn n h).
Proof. intros H p Hp. apply H. unfold lastn in Hp. rewrite <- (firstn_skipn (length h - n) h). apply in_or_app. right. exact Hp. Qed.
Lemma lastn_ne {A} n (h : list A) : 0 < n -> h <> [] -> lastn n h <> [].
Proof. intros Hn Hh E. apply (f_equal (@length A)) in E. rewrite lastn_length in E. destruct h; [congruence|]. cbn in E. lia. Qed.
Lemma diis_calls gelss nmax h nv ne : 0 < nmax -> h <> [] -> same_sizes nv ne h ->
  let kept := lastn nmax h in let k := length kept in
  exists d B b, add_all (diis_new nmax) h = Ok d /\
    (forall i j, i < k + 1 -> j < k + 1 -> at2 B (k + 1) i j = bordered_gram ne (map snd kept) i j) /\
    length b = k + 1 /\ (forall i, i < k + 1 -> nth i b 0%Qc = if i =? k then 1%Qc else 0%Qc) /\
    (forall e, gelss (k + 1) B b = Err e -> extrapolate gelss d = Err e) /\
    forall c, gelss (k + 1) B b = Ok c -> k <= length c ->
      exists x, extrapolate gelss d = Ok x /\ length x = nv /\
        forall m, m < nv -> nth m x 0%Qc = combination (fun i => nth i c 0%Qc) (map fst kept) m.
Proof.
  intros Hn Hh Hs kept k. exists (mk_diis nmax kept).
  destruct (extrapolate_ok gelss nmax kept nv ne) as [B [b H]]; [apply lastn_sizes; exact Hs|apply lastn_ne; auto|].
  exists B, b. split; [apply history_ok; exact Hn|]. exact H.
Qed.
Lemma diis_optimal gelss nmax h nv ne d x : 0 < nmax -> h <> [] -> same_sizes nv ne h -> least_squares gelss ->
  add_all (diis_new nmax) h = Ok d -> extrapolate gelss d = Ok x ->
  let kept := lastn nmax h in
  exists c, Sigma (length kept) c = 1%Qc /\ length x = nv /\ (forall m, m < nv -> nth m x 0%Qc = combination c (map fst kept) m) /\
    forall c', Sigma (length kept) c' = 1%Qc -> (norm2 ne (combination c (map snd kept)) <= norm2 ne (combination c' (map snd kept)))%Qc.
Proof.
  intros Hn Hh Hs HL Hd Hx kept.
  destruct (diis_calls gelss nmax h nv ne Hn Hh Hs) as [d' [B [b [Hd' [HB [Lb [Hb [He Hc]]]]]]]]. fold kept in HB, Lb, Hb, He, Hc.
  assert (d' = d) by congruence. subst d'.
  destruct (gelss (length kept + 1) B b) as [c|e] eqn:E; [|rewrite (He e eq_refl) in Hx; discriminate].
  destruct (HL _ _ _ _ E) as [Lc Hmin]. destruct (Hc c eq_refl ltac:(lia)) as [x' [Ex' [Lx Hxm]]]. assert (x' = x) by congruence. subst x'.
  exists (fun i => nth i c 0%Qc).
  destruct (bordered_optimal ne (map snd kept) (at2 B (length kept + 1)) (fun i => nth i b 0%Qc) c) as [S1 O1].
  - intros E'. apply map_eq_nil in E'. revert E'. apply lastn_ne; auto.
  - rewrite map_length. exact Lc.
  - rewrite map_length. exact HB.
  - rewrite map_length. exact Hb.
  - rewrite map_length. exact Hmin.
  - rewrite map_length in S1, O1. split; [exact S1|]. split; [exact Lx|]. split; [exact Hxm|]. exact O1.
Qed.
(** an affine error function *)
Lemma diis_affine gelss nmax h nv ne d x (A : nat -> nat -> Qc) (s : nat -> Qc) : 0 < nmax -> h <> [] -> same_sizes nv ne h -> least_squares gelss ->
  let err (v : list Qc) m := (Sigma nv (fun j => A m j * nth j v 0) - s m)%Qc in
  (forall p m, In p h -> m < ne -> nth m (snd p) 0%Qc = err (fst p) m) ->
  add_all (diis_new nmax) h = Ok d -> extrapolate gelss d = Ok x ->
  forall p, In p (lastn nmax h) -> (norm2 ne (err x) <= norm2 ne (err (fst p)))%Qc.
Proof.
  intros Hn Hh Hs HL err Herr Hd Hx p Hp.
  destruct (diis_optimal gelss nmax h nv ne d x Hn Hh Hs HL Hd Hx) as [c [S1 [Lx [Hm Ho]]]].
  set (kept := lastn nmax h) in *.
  assert (Hk : forall q, In q kept -> In q h). { intros q Hq. unfold kept, lastn in Hq. rewrite <- (firstn_skipn (length h - nmax) h). apply in_or_app. right. exact Hq. }
  assert (Ne : forall i m, i < length kept -> m < ne -> nth m (nth i (map snd kept) []) 0%Qc = err (nth i (map fst kept) []) m).
  { intros i m Hi Hmm. rewrite (nth_indep (map snd kept) [] (snd (@nil Qc, @nil Qc))) by (rewrite map_length; exact Hi).
    rewrite (nth_indep (map fst kept) [] (fst (@nil Qc, @nil Qc))) by (rewrite map_length; exact Hi). rewrite !map_nth. apply Herr; [|exact Hmm]. apply Hk, nth_In, Hi. }
  assert (Ex : forall m, m < ne -> err x m = combination c (map snd kept) m).
  { intros m Hmm. unfold combination. rewrite map_length. rewrite (Sigma_ext (length kept) _ (fun i => c i * Sigma nv (fun j => A m j * nth j (nth i (map fst kept) []) 0) - c i * s m)%Qc).
    2:{ intros i Hi. rewrite Ne by auto. unfold err. ring. }
    rewrite Sigma_minus, Sigma_scale_r, S1. unfold err. f_equal; [|ring].
    rewrite Sigma_pull. apply Sigma_ext. intros j Hj. rewrite Hm by exact Hj. unfold combination. rewrite map_length, <- Sigma_scale. apply Sigma_ext. intros. ring. }
  destruct (In_nth _ _ ([], []) Hp) as [i [Hi Ei]].
  specialize (Ho (fun j => if j =? i then 1%Qc else 0%Qc)).
  assert (Sd : Sigma (length kept) (fun j => if j =? i then 1%Qc else 0%Qc) = 1%Qc).
  { transitivity (Sigma (length kept) (fun j => (if j =? i then 1 else 0) * 1)%Qc); [|apply (Sigma_delta (length kept) i (fun _ => 1%Qc) Hi)]. apply Sigma_ext. intros. destruct (_ =? _); ring. }
  specialize (Ho Sd).
  assert (E1 : norm2 ne (err x) = norm2 ne (combination c (map snd kept))) by (apply Sigma_ext; intros m Hmm; rewrite Ex by exact Hmm; reflexivity).
  assert (E2 : norm2 ne (err (fst p)) = norm2 ne (combination (fun j => if j =? i then 1%Qc else 0%Qc) (map snd kept))).
  { apply Sigma_ext. intros m Hmm. unfold combination. rewrite map_length, (Sigma_delta (length kept) i _ Hi), Ne by auto.
    rewrite (nth_indep (map fst kept) [] (fst (@nil Qc, @nil Qc))) by (rewrite map_length; exact Hi). rewrite map_nth, Ei. reflexivity. }
  rewrite E1, E2. exact Ho.
Qed.

(** a solver that only accepts problems solved exactly by (1/2, 1/2, 0) *)
Definition ex_solver (n : nat) (B b : list Qc) : res (list Qc) :=
  let c := [half; half; 0%Qc] in
  if (n =? 3) && (if Qc_eq_dec (residual 3 (at2 B 3) (fun i => nth i b 0%Qc) (fun i => nth i c 0%Qc)) 0 then true else false) then Ok c else Err Throw.
Lemma ex_solver_ok : least_squares ex_solver.
Proof.
  intros n B b c H. unfold ex_solver in H. destruct (Nat.eqb_spec n 3) as [->|]; [|discriminate]. cbn [andb] in H.
  destruct (Qc_eq_dec _ _) as [Z|] in H; [|discriminate]. injection H as <-. split; [reflexivity|]. intros c'.
  match goal with |- (?X <= _)%Qc => replace X with 0%Qc by (symmetry; exact Z) end. apply Sigma_nonneg. intros. apply square_nonneg.
Qed.
Definition ex_history : list (list Qc * list Qc) := [([inject 7], [inject 9]); ([inject 1], [inject 1]); ([inject 2], [(- (1))%Qc])].
Lemma ex_diis : same_sizes 1 1 ex_history /\ exists d, add_all (diis_new 2) ex_history = Ok d /\ extrapolate ex_solver d = Ok [(inject 3 * half)%Qc].
Proof.
  split; [intros p [<-|[<-|[<-|[]]]]; split; reflexivity|]. eexists. split; [reflexivity|].
  assert (E : match extrapolate ex_solver (mk_diis 2 (skipn 1 ex_history)) with Ok [x] => Qc_eq_bool x (inject 3 * half)%Qc | _ => false end = true) by (vm_compute; reflexivity).
  cbn [skipn ex_history] in E. destruct (extrapolate ex_solver _) as [[|x [|]]|]; try discriminate. f_equal. f_equal. unfold Qc_eq_bool in E. destruct (Qc_eq_dec _ _); [assumption|discriminate].
Qed.

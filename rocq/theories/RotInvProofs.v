(** Vectors over occupation-number states as functions; creation and annihilation operators
    on them, in the original orbitals and in orbitals rotated by an orthogonal matrix;
    anticommutation relations; rotated determinants. Used in RotInvProofs2. *)
From Coq Require Import QArith Qcanon Permutation.
From Verif Require Import Base Bits BitsProofs SD Spec Sums FockSpec FockProofs HamProofs3 AsciContrib DenseSpec DenseProofs DiisProofs2 McscfSpec McscfProofs.
Local Open Scope nat_scope.

(** ** rows of an orthogonal matrix are orthonormal, too *)
Lemma Sigma_delta_r n p f : p < n -> Sigma n (fun i => f i * (if p =? i then 1 else 0))%Qc = f p.
Proof.
  intros H. unfold Sigma. rewrite (sum_single _ p).
  - rewrite Nat.eqb_refl. ring.
  - apply seq_NoDup.
  - apply in_seq. lia.
  - intros b _ Hb. destruct (Nat.eqb_spec p b); [congruence|ring].
Qed.
Lemma Sigma_delta_l n p f : p < n -> Sigma n (fun i => (if i =? p then 1 else 0) * f i)%Qc = f p.
Proof.
  intros H. unfold Sigma. rewrite (sum_single _ p).
  - rewrite Nat.eqb_refl. ring.
  - apply seq_NoDup.
  - apply in_seq. lia.
  - intros b _ Hb. destruct (Nat.eqb_spec b p); [congruence|ring].
Qed.
Lemma square_nonneg (x : Qc) : (0 <= x * x)%Qc.
Proof.
  destruct (Qclt_le_dec x 0) as [L|L].
  - replace (x * x)%Qc with ((- x) * (- x))%Qc by ring.
    assert (0 <= - x)%Qc by (replace 0%Qc with (- 0)%Qc by ring; apply Qcopp_le_compat, Qclt_le_weak, L).
    replace 0%Qc with (0 * (- x))%Qc by ring. apply Qcmult_le_compat_r; assumption.
  - replace 0%Qc with (0 * x)%Qc by ring. apply Qcmult_le_compat_r; assumption.
Qed.
Lemma square_zero (x : Qc) : (x * x = 0)%Qc -> x = 0%Qc.
Proof. intros H. destruct (Qcmult_integral _ _ H); assumption. Qed.
(** P = U U^T; sum_ij (delta - P)_ij^2 = sum_ij delta^2 - 2 sum_ij delta_ij P_ij + sum_ij P_ij^2 = n - 2 n + n *)
Lemma rows_orthogonal n U : orthogonal n U -> orthogonal n (fun i j => U j i).
Proof.
  intros HU.
  set (P := fun i j => Sigma n (fun l => U i l * U j l)%Qc).
  set (dl := fun i j : nat => if i =? j then 1%Qc else 0%Qc).
  assert (T1 : Sigma n (fun i => P i i) = Sigma n (fun _ => 1%Qc)).
  { unfold P. rewrite Sigma_swap. apply Sigma_ext. intros l Hl. rewrite (HU l l Hl Hl), Nat.eqb_refl. reflexivity. }
  assert (T2 : Sigma n (fun i => Sigma n (fun j => P i j * P i j)%Qc) = Sigma n (fun i => P i i)).
  { apply Sigma_ext. intros i Hi.
    transitivity (Sigma n (fun l => Sigma n (fun m => (U i l * U i m) * Sigma n (fun j => U j l * U j m))))%Qc.
    - transitivity (Sigma n (fun j => Sigma n (fun l => Sigma n (fun m => U i l * U j l * (U i m * U j m)))))%Qc.
      + apply Sigma_ext. intros j Hj. unfold P. rewrite <- Sigma_scale_r. apply Sigma_ext. intros l Hl. rewrite <- Sigma_scale. reflexivity.
      + rewrite Sigma_swap. apply Sigma_ext. intros l Hl. rewrite Sigma_swap. apply Sigma_ext. intros m Hm. rewrite <- Sigma_scale. apply Sigma_ext. intros j Hj. ring.
    - unfold P. apply Sigma_ext. intros l Hl.
      rewrite (Sigma_ext n _ (fun m => (U i l * U i m) * (if l =? m then 1 else 0))%Qc).
      + apply (Sigma_delta_r n l (fun m => U i l * U i m)%Qc Hl).
      + intros m Hm. rewrite (HU l m Hl Hm). reflexivity. }
  assert (T3 : Sigma n (fun i => Sigma n (fun j => (dl i j - P i j) * (dl i j - P i j))%Qc) = 0%Qc).
  { transitivity (Sigma n (fun i => 1 - (1 + 1) * P i i + Sigma n (fun j => P i j * P i j)))%Qc.
    - apply Sigma_ext. intros i Hi.
      transitivity (Sigma n (fun j => (1 - (1 + 1) * P i j) * (if i =? j then 1 else 0)) + Sigma n (fun j => P i j * P i j))%Qc.
      + rewrite <- Sigma_plus. apply Sigma_ext. intros j Hj. unfold dl. destruct (i =? j); ring.
      + rewrite (Sigma_delta_r n i (fun j => 1 - (1 + 1) * P i j)%Qc Hi). reflexivity.
    - rewrite Sigma_plus, T2, Sigma_minus, Sigma_scale, T1. ring. }
  intros i j Hi Hj. cbv beta. change (P i j = dl i j).
  assert (X : ((dl i j - P i j) * (dl i j - P i j) = 0)%Qc).
  { apply (DiisProofs2.Sigma_zero n (fun j => (dl i j - P i j) * (dl i j - P i j))%Qc); [|apply (DiisProofs2.Sigma_zero n (fun i => Sigma n (fun j => (dl i j - P i j) * (dl i j - P i j))%Qc)); [|exact T3|exact Hi]|exact Hj].
    - intros k _. apply square_nonneg.
    - intros k _. apply Sigma_nonneg. intros m _. apply square_nonneg. }
  apply square_zero in X. replace (P i j) with (dl i j - (dl i j - P i j))%Qc by ring. rewrite X. ring.
Qed.

(** ** operators on vectors; [true] creates *)
Definition vec := N -> Qc.
Definition opv (c : bool) (P : nat) (v : vec) : vec := fun t => if Bool.eqb (tb t P) c then (sgn (parity_below t P) * v (flipb t P))%Qc else 0%Qc.
Lemma opv_ext c P v w t : (forall s, v s = w s) -> opv c P v t = opv c P w t.
Proof. intros H. unfold opv. rewrite H. reflexivity. Qed.
Lemma opv_sum {A} c P (l : list A) (k : A -> Qc) (f : A -> vec) t : opv c P (fun s => sum l (fun a => k a * f a s))%Qc t = sum l (fun a => k a * opv c P (f a) t)%Qc.
Proof.
  unfold opv. destruct (Bool.eqb (tb t P) c).
  - rewrite <- sum_scale. apply sum_ext. intros a _. ring.
  - symmetry. apply sum_zero. intros a _. ring.
Qed.
Lemma ltb_anti p q : p <> q -> (q <? p) = negb (p <? q).
Proof. intros H. destruct (Nat.ltb_spec p q), (Nat.ltb_spec q p); try reflexivity; lia. Qed.
Lemma sgn_negb b : sgn (negb b) = (- sgn b)%Qc. Proof. destruct b; cbn; ring. Qed.
Lemma opv_anti c c' P Q v t : P <> Q -> opv c P (opv c' Q v) t = (- opv c' Q (opv c P v) t)%Qc.
Proof.
  intros H. unfold opv. rewrite (tb_flip_other t P Q) by congruence. rewrite (tb_flip_other t Q P) by congruence. rewrite !parity_flip, (flip_comm t P Q), (ltb_anti P Q H).
  destruct (Bool.eqb (tb t P) c), (Bool.eqb (tb t Q) c'); try ring. rewrite !sgn_xorb, sgn_negb. ring.
Qed.
Lemma opv_twice c P v t : opv c P (opv c P v) t = 0%Qc.
Proof. unfold opv. rewrite tb_flip_same. destruct (tb t P), c; cbn; ring. Qed.
Lemma opv_both P v t : (opv false P (opv true P v) t + opv true P (opv false P v) t = v t)%Qc.
Proof.
  unfold opv. rewrite tb_flip_same, !parity_flip, flip_flip, Nat.ltb_irrefl, Bool.xorb_false_r.
  pose proof (sgn_sq (parity_below t P)) as E. destruct (tb t P); cbn [Bool.eqb negb]; rewrite Qcmult_assoc, E; ring.
Qed.
(** the anticommutators *)
Lemma opv_same c P Q v t : opv c P (opv c Q v) t = (- opv c Q (opv c P v) t)%Qc.
Proof. destruct (Nat.eq_dec P Q) as [->|H]; [rewrite opv_twice; ring|apply opv_anti, H]. Qed.
Lemma opv_car P Q v t : (opv false P (opv true Q v) t + opv true Q (opv false P v) t = if P =? Q then v t else 0)%Qc.
Proof. destruct (Nat.eqb_spec P Q) as [->|H]; [apply opv_both|]. rewrite opv_anti by exact H. ring. Qed.

Section ROT.
  Variables (W no : nat) (U : nat -> nat -> Qc).
  Hypothesis Hno : no <= W / 2.
  Hypothesis HU : orthogonal no U.
  Definition mode := (bool * nat)%type.
  Definition pos (m : mode) : nat := so W (fst m) (snd m).
  Definition rop (c : bool) (m : mode) (v : vec) : vec := fun t => Sigma no (fun q => U q (snd m) * opv c (so W (fst m) q) v t)%Qc.
  Lemma rop_ext c m v w t : (forall s, v s = w s) -> rop c m v t = rop c m w t.
  Proof. intros H. unfold rop. apply Sigma_ext. intros q _. rewrite (opv_ext c _ v w t H). reflexivity. Qed.
  Lemma rop_sum {A} c m (l : list A) (k : A -> Qc) (f : A -> vec) t : rop c m (fun s => sum l (fun a => k a * f a s))%Qc t = sum l (fun a => k a * rop c m (f a) t)%Qc.
  Proof.
    unfold rop, Sigma. transitivity (sum (seq 0 no) (fun q => sum l (fun a => k a * (U q (snd m) * opv c (so W (fst m) q) (f a) t)))%Qc).
    - apply sum_ext. intros q _. rewrite opv_sum, <- sum_scale. apply sum_ext. intros a _. ring.
    - rewrite sum_swap. apply sum_ext. intros a _. rewrite sum_scale. reflexivity.
  Qed.
  Lemma rop_scale c m k v t : rop c m (fun s => k * v s)%Qc t = (k * rop c m v t)%Qc.
  Proof.
    pose proof (rop_sum c m [tt] (fun _ => k) (fun _ => v) t) as E. cbn [sum] in E.
    transitivity (rop c m (fun s => k * v s + 0)%Qc t); [apply rop_ext; intros; ring|]. rewrite E. ring.
  Qed.
  Lemma rop_zero c m v t : (forall s, v s = 0%Qc) -> rop c m v t = 0%Qc.
  Proof. intros H. rewrite (rop_ext c m v (fun s => 0 * v s)%Qc t) by (intros; rewrite H; ring). rewrite rop_scale. ring. Qed.
  (** two operators at once *)
  Lemma rop_rop c m c' m' v t : rop c m (rop c' m' v) t = Sigma no (fun q => Sigma no (fun r => (U q (snd m) * U r (snd m')) * opv c (so W (fst m) q) (opv c' (so W (fst m') r) v) t))%Qc.
  Proof.
    unfold rop at 1. apply Sigma_ext. intros q _. unfold rop, Sigma. rewrite (opv_sum c (so W (fst m) q) (seq 0 no) (fun r => U r (snd m')) (fun r => opv c' (so W (fst m') r) v)), <- sum_scale. apply sum_ext. intros r _. ring.
  Qed.
  Lemma rop_same c m m' v t : rop c m (rop c m' v) t = (- rop c m' (rop c m v) t)%Qc.
  Proof.
    rewrite !rop_rop. rewrite Sigma_swap, <- Sigma_opp. apply Sigma_ext. intros r _. rewrite <- Sigma_opp. apply Sigma_ext. intros q _.
    rewrite opv_same. ring.
  Qed.
  Lemma double_zero x : (x = - x)%Qc -> x = 0%Qc.
  Proof. intros H. rewrite <- (half_half x). rewrite H at 1. ring. Qed.
  Lemma rop_twice c m v t : rop c m (rop c m v) t = 0%Qc.
  Proof. apply double_zero, rop_same. Qed.
  Definition mode_ok (m : mode) : Prop := snd m < no.
  Definition mode_eqb (m m' : mode) : bool := Bool.eqb (fst m) (fst m') && (snd m =? snd m').
  Lemma mode_eqb_iff m m' : mode_eqb m m' = true <-> m = m'.
  Proof.
    destruct m as [s p], m' as [s' p']. unfold mode_eqb. cbn. rewrite andb_true_iff, Nat.eqb_eq, Bool.eqb_true_iff.
    split; [intros [-> ->]; reflexivity|intros E; injection E; auto].
  Qed.
  Lemma so_inj s s' p p' : p < no -> p' < no -> so W s p = so W s' p' -> s = s' /\ p = p'.
  Proof. unfold so. intros A B E. destruct s, s'; split; try reflexivity; lia. Qed.
  Lemma rop_car m m' v t : mode_ok m -> mode_ok m' -> (rop false m (rop true m' v) t + rop true m' (rop false m v) t = if mode_eqb m m' then v t else 0)%Qc.
  Proof.
    intros A B. rewrite !rop_rop. rewrite (Sigma_swap no no (fun q r => (U q (snd m') * U r (snd m) * opv true (so W (fst m') q) (opv false (so W (fst m) r) v) t)%Qc)), <- Sigma_plus.
    transitivity (Sigma no (fun q => Sigma no (fun r => U q (snd m) * U r (snd m') * (if (so W (fst m) q =? so W (fst m') r)%nat then v t else 0)))%Qc).
    { apply Sigma_ext. intros q _. rewrite <- Sigma_plus. apply Sigma_ext. intros r _. rewrite <- opv_car. ring. }
    destruct m as [s p], m' as [s' p']. unfold mode_ok, mode_eqb in *. cbn [fst snd] in *. destruct (Bool.eqb_spec s s') as [<-|D].
    - transitivity (Sigma no (fun q => (U q p * U q p') * v t)%Qc).
      + apply Sigma_ext. intros q Hq.
        transitivity (Sigma no (fun r => (U q p * U r p' * v t) * (if q =? r then 1 else 0))%Qc).
        * apply Sigma_ext. intros r Hr. replace (so W s q =? so W s r) with (q =? r); [destruct (q =? r); ring|].
          destruct (Nat.eqb_spec q r) as [->|E]; [symmetry; apply Nat.eqb_refl|]. symmetry. apply Nat.eqb_neq. intros X. destruct (so_inj s s q r Hq Hr X). congruence.
        * apply (Sigma_delta_r no q (fun r => U q p * U r p' * v t)%Qc Hq).
      + rewrite Sigma_scale_r, (HU p p' A B). cbn [andb]. destruct (p =? p'); ring.
    - cbn [andb]. apply sum_zero. intros q Hq. apply sum_zero. intros r Hr. apply in_seq in Hq, Hr.
      destruct (Nat.eqb_spec (so W s q) (so W s' r)) as [E|E]; [|ring]. destruct (so_inj s s' q r ltac:(lia) ltac:(lia) E). congruence.
  Qed.
  Lemma rop_swap c c' m m' v t : mode_ok m -> mode_ok m' -> m <> m' -> rop c m (rop c' m' v) t = (- rop c' m' (rop c m v) t)%Qc.
  Proof.
    intros A B D. assert (E : forall a b, mode_eqb a b = true -> a = b) by (intros; apply mode_eqb_iff; assumption).
    destruct c, c'; try apply rop_same.
    - pose proof (rop_car m' m v t B A) as X. destruct (mode_eqb m' m) eqn:F; [apply E in F; congruence|].
      replace (rop true m (rop false m' v) t) with ((rop false m' (rop true m v) t + rop true m (rop false m' v) t) - rop false m' (rop true m v) t)%Qc by ring. rewrite X. ring.
    - pose proof (rop_car m m' v t A B) as X. destruct (mode_eqb m m') eqn:F; [apply E in F; congruence|].
      replace (rop false m (rop true m' v) t) with ((rop false m (rop true m' v) t + rop true m' (rop false m v) t) - rop true m' (rop false m v) t)%Qc by ring. rewrite X. ring.
  Qed.

  (** ** rotated determinants *)
  Definition e0 : vec := fun t => if (t =? 0)%N then 1%Qc else 0%Qc.
  Fixpoint phix (l : list mode) (d : N) (v : vec) : vec :=
    match l with [] => v | m :: r => if tb d (pos m) then rop true m (phix r d v) else phix r d v end.
  Definition par (d : N) (l : list mode) : bool := Nat.odd (length (filter (fun m => tb d (pos m)) l)).
  Lemma phix_ext l d : forall v w t, (forall s, v s = w s) -> phix l d v t = phix l d w t.
  Proof. induction l as [|m r IH]; cbn; intros v w t H; [apply H|]. destruct (tb d (pos m)); [apply rop_ext; intros; apply IH, H|apply IH, H]. Qed.
  Lemma phix_scale l d : forall k v t, phix l d (fun s => k * v s)%Qc t = (k * phix l d v t)%Qc.
  Proof.
    induction l as [|m r IH]; cbn; intros k v t; [reflexivity|]. destruct (tb d (pos m)); [|apply IH].
    rewrite <- rop_scale. apply rop_ext. intros s. apply IH.
  Qed.
  Lemma phix_zero l d v t : (forall s, v s = 0%Qc) -> phix l d v t = 0%Qc.
  Proof. intros H. rewrite (phix_ext l d v (fun s => 0 * v s)%Qc t) by (intros; rewrite H; ring). rewrite phix_scale. ring. Qed.
  Lemma phix_app l l' d v : phix (l ++ l') d v = phix l d (phix l' d v).
  Proof. induction l as [|m r IH]; cbn; [reflexivity|]. rewrite IH. reflexivity. Qed.
  Lemma phix_bits l d d' v : (forall m, In m l -> tb d (pos m) = tb d' (pos m)) -> phix l d v = phix l d' v.
  Proof.
    induction l as [|m r IH]; cbn; intros H; [reflexivity|]. rewrite (H m) by (left; reflexivity). rewrite IH by (intros; apply H; right; assumption). reflexivity.
  Qed.
  Lemma odd_S k : Nat.odd (S k) = negb (Nat.odd k). Proof. rewrite Nat.odd_succ, <- Nat.negb_odd. reflexivity. Qed.
  Lemma pass c m l d : mode_ok m -> (forall k, In k l -> mode_ok k /\ k <> m) -> forall v t, rop c m (phix l d v) t = (sgn (par d l) * phix l d (rop c m v) t)%Qc.
  Proof.
    intros Hm. induction l as [|k r IH]; intros H v t; [cbn; ring|].
    destruct (H k (or_introl eq_refl)) as [Hk Ne]. assert (IH' := IH (fun k' Hk' => H k' (or_intror Hk'))). clear IH.
    unfold par in *. cbn [phix filter]. destruct (tb d (pos k)).
    - cbn [length]. rewrite odd_S, sgn_negb. rewrite rop_swap by (auto; congruence).
      rewrite (rop_ext true k _ (fun s => sgn (Nat.odd (length (filter (fun m0 => tb d (pos m0)) r))) * phix r d (rop c m v) s)%Qc) by (intros; apply IH').
      rewrite rop_scale. ring.
    - apply IH'.
  Qed.
  Lemma rop_e0 m t : mode_ok m -> rop false m e0 t = 0%Qc.
  Proof.
    intros _. unfold rop. apply sum_zero. intros q _. unfold opv. destruct (Bool.eqb (tb t (so W (fst m) q)) false) eqn:E; [|ring].
    unfold e0. destruct (N.eqb_spec (flipb t (so W (fst m) q)) 0) as [F|F]; [|ring]. exfalso.
    apply (f_equal (fun x => tb x (so W (fst m) q))) in F. rewrite tb_flip_same, tb_0 in F. apply Bool.eqb_prop in E. rewrite E in F. discriminate F.
  Qed.
  Lemma kill m l d t : mode_ok m -> (forall k, In k l -> mode_ok k /\ k <> m) -> rop false m (phix l d e0) t = 0%Qc.
  Proof. intros A H. rewrite (pass false m l d A H). rewrite phix_zero; [ring|]. intros. apply rop_e0, A. Qed.
  Lemma pos_inj m m' : mode_ok m -> mode_ok m' -> pos m = pos m' -> m = m'.
  Proof. destruct m as [s p], m' as [s' p']. unfold mode_ok, pos. cbn. intros A B E. destruct (so_inj s s' p p' A B E) as [-> ->]. reflexivity. Qed.
  Lemma on_det c m pre post d t : NoDup (pre ++ m :: post) -> (forall k, In k (pre ++ m :: post) -> mode_ok k) ->
    let l := pre ++ m :: post in
    rop c m (phix l d e0) t = if Bool.eqb (tb d (pos m)) (negb c) then (sgn (par d pre) * phix l (flipb d (pos m)) e0 t)%Qc else 0%Qc.
  Proof.
    intros Nd Ok. cbv zeta.
    assert (Hm : mode_ok m) by (apply Ok, in_or_app; right; left; reflexivity).
    assert (Nm : ~ In m (pre ++ post)) by (apply NoDup_remove_2, Nd).
    assert (Ne : forall k, In k (pre ++ post) -> mode_ok k /\ k <> m).
    { intros k Hk. split; [|intros ->; exact (Nm Hk)]. apply Ok. apply in_app_or in Hk. apply in_or_app. cbn. tauto. }
    rewrite phix_app, (pass c m pre d Hm) by (intros k Hk; apply Ne, in_or_app; left; exact Hk).
    assert (Fl : forall v, phix pre d v = phix pre (flipb d (pos m)) v /\ phix post d v = phix post (flipb d (pos m)) v).
    { intros v. split; apply phix_bits; intros k Hk; symmetry; apply tb_flip_other; intros E.
      - destruct (Ne k) as [A B]; [apply in_or_app; left; exact Hk|]. exact (B (pos_inj _ _ A Hm E)).
      - destruct (Ne k) as [A B]; [apply in_or_app; right; exact Hk|]. exact (B (pos_inj _ _ A Hm E)). }
    rewrite phix_app. rewrite (proj1 (Fl _)). cbn [phix]. rewrite tb_flip_same.
    assert (K : forall s, rop false m (phix post d e0) s = 0%Qc) by (intros s; apply kill; [exact Hm|]; intros k Hk; apply Ne, in_or_app; right; exact Hk).
    destruct (tb d (pos m)) eqn:B, c; cbn [Bool.eqb negb].
    - rewrite phix_zero; [ring|]. intros s. apply rop_twice.
    - f_equal. apply phix_ext. intros s. rewrite <- (proj2 (Fl _)).
      pose proof (rop_car m m (phix post d e0) s Hm Hm) as X. rewrite (proj2 (mode_eqb_iff m m) eq_refl) in X.
      rewrite (rop_zero true m _ s K) in X. rewrite <- X. ring.
    - f_equal. apply phix_ext. intros s. apply rop_ext. intros s'. rewrite (proj2 (Fl _)). reflexivity.
    - rewrite phix_zero; [ring|exact K].
  Qed.
End ROT.

(** The energy of a wave function does not depend on the orbitals used to write it. *)
From Coq Require Import QArith Qcanon Permutation.
From Verif Require Import Base Bits BitsProofs SD Spec Sums FockSpec FockProofs SDProofs HamProofs3 AsciContrib DenseSpec Dense DenseProofs SlaterCondon Ham DiisSpec DavSpec McscfSpec McscfProofs FreezeProofs4 RotInvProofs RotInvProofs2.
Local Open Scope nat_scope.

(** the Hamiltonian as a linear combination of products of operators *)
Definition prod1 (s : bool) (p q : nat) : list (bool * mode) := [(true, (s, p)); (false, (s, q))].
Definition prod2 (s t : bool) (p q r u : nat) : list (bool * mode) := [(true, (s, p)); (true, (t, r)); (false, (t, u)); (false, (s, q))].
Definition hsum (no : nat) (T : nat -> nat -> Qc) (V : nat -> nat -> nat -> nat -> Qc) (g : list (bool * mode) -> Qc) : Qc :=
  (sum spins (fun sg => Sigma no (fun p => Sigma no (fun q => T p q * g (prod1 sg p q)))) +
   half * sum spins (fun sg => sum spins (fun ta => Sigma no (fun p => Sigma no (fun q => Sigma no (fun r => Sigma no (fun s => V p q r s * g (prod2 sg ta p q r s))))))))%Qc.
Definition hterms (no : nat) (T : nat -> nat -> Qc) (V : nat -> nat -> nat -> nat -> Qc) : list (Qc * list (bool * mode)) :=
  flat_map (fun sg => flat_map (fun p => map (fun q => (T p q, prod1 sg p q)) (seq 0 no)) (seq 0 no)) spins ++
  flat_map (fun sg => flat_map (fun ta => flat_map (fun p => flat_map (fun q => flat_map (fun r => map (fun s => (half * V p q r s, prod2 sg ta p q r s)%Qc) (seq 0 no)) (seq 0 no)) (seq 0 no)) (seq 0 no)) spins) spins.
Lemma hsum_flat no T V g : hsum no T V g = sum (hterms no T V) (fun x => fst x * g (snd x))%Qc.
Proof.
  unfold hsum, hterms, Sigma. rewrite sum_app, !sum_flat_map. f_equal.
  - apply sum_ext. intros sg _. rewrite sum_flat_map. apply sum_ext. intros p _. rewrite sum_map. reflexivity.
  - rewrite <- sum_scale. apply sum_ext. intros sg _. rewrite sum_flat_map, <- sum_scale. apply sum_ext. intros ta _. rewrite sum_flat_map, <- sum_scale. apply sum_ext. intros p _.
    rewrite sum_flat_map, <- sum_scale. apply sum_ext. intros q _. rewrite sum_flat_map, <- sum_scale. apply sum_ext. intros r _. rewrite sum_map, <- sum_scale. apply sum_ext. intros s _. cbn [fst snd]. ring.
Qed.
Lemma hterms_ok no T V x : In x (hterms no T V) -> forall y, In y (snd x) -> mode_ok no (snd y).
Proof.
  unfold hterms. rewrite in_app_iff. intros [H|H] y Hy; rewrite in_flat_map in H; destruct H as (sg & _ & H); rewrite in_flat_map in H.
  - destruct H as (p & Hp & H). rewrite in_map_iff in H. destruct H as (q & <- & Hq). apply in_seq in Hp, Hq. cbn [snd] in Hy. unfold mode_ok.
    destruct Hy as [<-|[<-|[]]]; cbn; lia.
  - destruct H as (ta & _ & H). rewrite in_flat_map in H. destruct H as (p & Hp & H). rewrite in_flat_map in H. destruct H as (q & Hq & H). rewrite in_flat_map in H. destruct H as (r & Hr & H).
    rewrite in_map_iff in H. destruct H as (s & <- & Hs). apply in_seq in Hp, Hq, Hr, Hs. cbn [snd] in Hy. unfold mode_ok. destruct Hy as [<-|[<-|[<-|[<-|[]]]]]; cbn; lia.
Qed.
Lemma hsum_ext no T V g g' : (forall l, (forall y, In y l -> mode_ok no (snd y)) -> g l = g' l) -> hsum no T V g = hsum no T V g'.
Proof. intros H. rewrite !hsum_flat. apply sum_ext. intros x Hx. f_equal. apply H. exact (hterms_ok no T V x Hx). Qed.
Lemma hsum_sum {A} no T V (J : list A) k (g : A -> list (bool * mode) -> Qc) : hsum no T V (fun l => sum J (fun a => k a * g a l))%Qc = sum J (fun a => k a * hsum no T V (g a))%Qc.
Proof.
  rewrite hsum_flat. transitivity (sum (hterms no T V) (fun x => sum J (fun a => k a * (fst x * g a (snd x))))%Qc).
  - apply sum_ext. intros x _. rewrite <- sum_scale. apply sum_ext. intros a _. ring.
  - rewrite sum_swap. apply sum_ext. intros a _. rewrite sum_scale, <- hsum_flat. reflexivity.
Qed.
Lemma ham_hsum W no T V b d : ham W no T V b d = hsum no T V (fun l => braket b (ops_of W l) d).
Proof. reflexivity. Qed.

(** ** products in the original orbitals *)
Section ORIG.
  Variable W : nat.
  Fixpoint oops (l : list (bool * mode)) (v : vec) : vec := match l with [] => v | (c, m) :: r => opv c (pos W m) (oops r v) end.
  Definition e_ (s : N) : vec := fun t => if (s =? t)%N then 1%Qc else 0%Qc.
  Lemma oops_ext l : forall v w t, (forall s, v s = w s) -> oops l v t = oops l w t.
  Proof. induction l as [|[c m] r IH]; intros v w t H; [apply H|]. cbn. apply opv_ext. intros s. apply IH, H. Qed.
  Lemma oops_sum {A} (J : list A) k (f : A -> vec) l : forall t, oops l (fun s => sum J (fun a => k a * f a s))%Qc t = sum J (fun a => k a * oops l (f a) t)%Qc.
  Proof. induction l as [|[c m] r IH]; intros t; [reflexivity|]. cbn [oops]. rewrite (opv_ext c _ _ _ t IH). apply (opv_sum c (pos W m) J k (fun a => oops r (f a))). Qed.
  Lemma opv_e c m s t : opv c (pos W m) (e_ s) t = match act (op_of W c m) s with Some (sg, s') => (sgn sg * e_ s' t)%Qc | None => 0%Qc end.
  Proof.
    rewrite act_of. unfold opv, e_. set (P := pos W m).
    assert (E : (s =? flipb t P)%N = (flipb s P =? t)%N).
    { destruct (N.eqb_spec s (flipb t P)) as [->|D].
      - symmetry. apply N.eqb_eq. apply flip_flip.
      - symmetry. apply N.eqb_neq. intros <-. apply D. symmetry. apply flip_flip. }
    rewrite E. destruct (N.eqb_spec (flipb s P) t) as [<-|D].
    - rewrite tb_flip_same, parity_flip, Nat.ltb_irrefl, Bool.xorb_false_r. destruct (tb s P), c; cbn [Bool.eqb negb]; rewrite ?N.eqb_refl; ring.
    - apply N.eqb_neq in D. destruct (Bool.eqb (tb t P) c), (Bool.eqb (tb s P) (negb c)); rewrite ?D; ring.
  Qed.
  Lemma oops_e l s t : oops l (e_ s) t = braket t (ops_of W l) s.
  Proof.
    unfold braket. assert (X : forall t, oops l (e_ s) t = match apply (ops_of W l) s with Some (sg, s') => (sgn sg * e_ s' t)%Qc | None => 0%Qc end).
    { induction l as [|[c m] r IH]; intros u; [cbn; ring|]. cbn [oops ops_of map fst snd apply]. fold (ops_of W r). destruct (apply (ops_of W r) s) as [[sg s']|].
      - rewrite (opv_ext c _ _ (fun x => sum [tt] (fun _ => sgn sg * e_ s' x))%Qc u) by (intros x; rewrite IH; cbn; ring).
        rewrite (opv_sum c (pos W m) [tt] (fun _ => sgn sg) (fun _ => e_ s')). cbn [sum]. rewrite opv_e. destruct (act (op_of W c m) s') as [[sg' s'']|]; [rewrite sgn_xorb; ring|ring].
      - unfold opv. rewrite IH. destruct (Bool.eqb (tb u (pos W m)) c); ring. }
    rewrite X. destruct (apply (ops_of W l) s) as [[sg s']|]; [|reflexivity]. unfold e_. destruct (s' =? t)%N; ring.
  Qed.
End ORIG.

Lemma swap22 n f : Sigma n (fun p => Sigma n (fun q => Sigma n (fun i => Sigma n (fun j => f p q i j)))) = Sigma n (fun i => Sigma n (fun j => Sigma n (fun p => Sigma n (fun q => f p q i j)))).
Proof.
  transitivity (sum (loop2 n n) (fun x => sum (loop2 n n) (fun y => f (fst x) (snd x) (fst y) (snd y)))).
  - rewrite Sigma_loop2. apply Sigma_ext. intros p _. apply Sigma_ext. intros q _. rewrite Sigma_loop2. reflexivity.
  - rewrite sum_swap, Sigma_loop2. apply Sigma_ext. intros p _. apply Sigma_ext. intros q _. rewrite Sigma_loop2. reflexivity.
Qed.
Section ROT.
  Variables (W no : nat) (U : nat -> nat -> Qc).
  Hypothesis Hno : no <= W / 2.
  Hypothesis HU : orthogonal no U.
  Variables (T T' : nat -> nat -> Qc) (V V' : nat -> nat -> nat -> nat -> Qc).
  Hypothesis HR : rotated no U T V T' V'.
  Local Notation rop := (rop W no U).
  Local Notation rops := (rops W no U).
  Local Notation phi := (phi W no U).
  Local Notation ip := (ip W no).
  Lemma rows i j : i < no -> j < no -> Sigma no (fun p => U i p * U j p)%Qc = identity i j.
  Proof. intros A B. exact (rows_orthogonal no U HU i j A B). Qed.
  Lemma back2 i j : i < no -> j < no -> Sigma no (fun p => Sigma no (fun q => U i p * U j q * T' p q))%Qc = T i j.
  Proof.
    intros Hi Hj. transitivity (congruence2 no (fun p i => U i p) (congruence2 no U T) i j).
    - unfold congruence2 at 1. apply Sigma_ext. intros p Hp. apply Sigma_ext. intros q Hq. rewrite (proj1 (proj2 HR) p q Hp Hq). reflexivity.
    - rewrite congruence2_compose. rewrite <- (congruence2_id no T i j Hi Hj). unfold congruence2, product. apply Sigma_ext. intros p Hp. apply Sigma_ext. intros q Hq.
      rewrite (rows p i Hp Hi), (rows q j Hq Hj). reflexivity.
  Qed.
  Lemma back4 i j k l : i < no -> j < no -> k < no -> l < no ->
    Sigma no (fun p => Sigma no (fun q => Sigma no (fun r => Sigma no (fun s => U i p * U j q * U k r * U l s * V' p q r s))))%Qc = V i j k l.
  Proof.
    intros Hi Hj Hk Hl. transitivity (congruence4 no (fun p i => U i p) (congruence4 no U V) i j k l).
    - unfold congruence4 at 1. apply Sigma_ext. intros p Hp. apply Sigma_ext. intros q Hq. apply Sigma_ext. intros r Hr. apply Sigma_ext. intros s Hs. rewrite (proj2 (proj2 HR) p q r s Hp Hq Hr Hs). reflexivity.
    - rewrite congruence4_compose. rewrite <- (congruence4_id no V i j k l Hi Hj Hk Hl). unfold congruence4, product. apply Sigma_ext. intros p Hp. apply Sigma_ext. intros q Hq. apply Sigma_ext. intros r Hr. apply Sigma_ext. intros s Hs.
      rewrite (rows p i Hp Hi), (rows q j Hq Hj), (rows r k Hr Hk), (rows s l Hs Hl). reflexivity.
  Qed.
  Lemma rops1 s p q v t : rops (prod1 s p q) v t = Sigma no (fun i => Sigma no (fun j => (U i p * U j q) * oops W (prod1 s i j) v t))%Qc.
  Proof. unfold prod1. cbn [RotInvProofs2.rops]. rewrite rop_rop. reflexivity. Qed.
  Lemma rops2 s u p q r w v t : rops (prod2 s u p q r w) v t =
    Sigma no (fun i => Sigma no (fun k => Sigma no (fun l => Sigma no (fun j => (U i p * U k r) * ((U l w * U j q) * oops W (prod2 s u i j k l) v t)))))%Qc.
  Proof.
    unfold prod2. cbn [RotInvProofs2.rops]. rewrite rop_rop. apply Sigma_ext. intros i _. apply Sigma_ext. intros k _. cbn [fst snd].
    transitivity ((U i p * U k r) * opv true (so W s i) (opv true (so W u k) (fun x => sum (loop2 no no) (fun lj => (U (fst lj) w * U (snd lj) q) * opv false (so W u (fst lj)) (opv false (so W s (snd lj)) v) x)))  t)%Qc.
    - f_equal. apply opv_ext. intros x. apply opv_ext. intros y. rewrite rop_rop, Sigma_loop2. reflexivity.
    - rewrite (opv_ext true (so W s i) _ (fun x => sum (loop2 no no) (fun lj => (U (fst lj) w * U (snd lj) q) * opv true (so W u k) (opv false (so W u (fst lj)) (opv false (so W s (snd lj)) v)) x))%Qc t)
        by (intros x; apply (opv_sum true (so W u k) (loop2 no no) (fun lj => U (fst lj) w * U (snd lj) q)%Qc (fun lj => opv false (so W u (fst lj)) (opv false (so W s (snd lj)) v)))).
      rewrite (opv_sum true (so W s i) (loop2 no no) (fun lj => U (fst lj) w * U (snd lj) q)%Qc (fun lj => opv true (so W u k) (opv false (so W u (fst lj)) (opv false (so W s (snd lj)) v)))).
      rewrite Sigma_loop2, <- Sigma_scale. apply Sigma_ext. intros l _. rewrite <- Sigma_scale. reflexivity.
  Qed.
  (** the Hamiltonian with rotated integrals and rotated operators is the original one *)
  Lemma same_hamiltonian v t : hsum no T' V' (fun l => rops l v t) = hsum no T V (fun l => oops W l v t).
  Proof.
    unfold hsum. f_equal.
    - apply sum_ext. intros sg _.
      transitivity (Sigma no (fun p => Sigma no (fun q => Sigma no (fun i => Sigma no (fun j => (U i p * U j q * T' p q) * oops W (prod1 sg i j) v t))))%Qc).
      + apply Sigma_ext. intros p _. apply Sigma_ext. intros q _. rewrite rops1, <- Sigma_scale. apply Sigma_ext. intros i _. rewrite <- Sigma_scale. apply Sigma_ext. intros j _. ring.
      + rewrite swap22. apply Sigma_ext. intros i Hi. apply Sigma_ext. intros j Hj. rewrite <- (back2 i j Hi Hj).
        rewrite <- Sigma_scale_r. apply Sigma_ext. intros p _. rewrite <- Sigma_scale_r. reflexivity.
    - f_equal. apply sum_ext. intros sg _. apply sum_ext. intros ta _.
      transitivity (sum (loop4 no no no no) (fun x => let '((p, q), (r, s)) := x in sum (loop4 no no no no) (fun y => let '((i, j), (k, l)) := y in
        (U i p * U j q * U k r * U l s * V' p q r s) * oops W (prod2 sg ta i j k l) v t)))%Qc.
      + rewrite Sigma_loop4. apply Sigma_ext. intros p _. apply Sigma_ext. intros q _. apply Sigma_ext. intros r _. apply Sigma_ext. intros s _.
        rewrite Sigma_loop4, rops2, <- Sigma_scale. apply Sigma_ext. intros i _.
        transitivity (Sigma no (fun k => Sigma no (fun l => Sigma no (fun j => U i p * U j q * U k r * U l s * V' p q r s * oops W (prod2 sg ta i j k l) v t))))%Qc.
        * rewrite <- Sigma_scale. apply Sigma_ext. intros k _. rewrite <- Sigma_scale. apply Sigma_ext. intros l _. rewrite <- Sigma_scale. apply Sigma_ext. intros j _. ring.
        * rewrite (Sigma_swap no no (fun j k => Sigma no (fun l => U i p * U j q * U k r * U l s * V' p q r s * oops W (prod2 sg ta i j k l) v t))%Qc). apply Sigma_ext. intros k _. apply Sigma_swap.
      + transitivity (sum (loop4 no no no no) (fun y => let '((i, j), (k, l)) := y in sum (loop4 no no no no) (fun x => let '((p, q), (r, s)) := x in
          (U i p * U j q * U k r * U l s * V' p q r s) * oops W (prod2 sg ta i j k l) v t)))%Qc.
        * set (f := fun x y => let '((p, q), (r, s)) := x in let '((i, j), (k, l)) := y in ((U i p * U j q * U k r * U l s * V' p q r s) * oops W (prod2 sg ta i j k l) v t)%Qc).
          transitivity (sum (loop4 no no no no) (fun x => sum (loop4 no no no no) (fun y => f x y))).
          { apply sum_ext. intros [[p q] [r s]] _. apply sum_ext. intros [[i j] [k l]] _. reflexivity. }
          rewrite sum_swap. apply sum_ext. intros [[i j] [k l]] _. apply sum_ext. intros [[p q] [r s]] _. reflexivity.
        * rewrite Sigma_loop4. apply Sigma_ext. intros i Hi. apply Sigma_ext. intros j Hj. apply Sigma_ext. intros k Hk. apply Sigma_ext. intros l Hl.
          rewrite Sigma_loop4, <- (back4 i j k l Hi Hj Hk Hl). rewrite <- Sigma_scale_r. apply Sigma_ext. intros p _. rewrite <- Sigma_scale_r. apply Sigma_ext. intros q _.
          rewrite <- Sigma_scale_r. apply Sigma_ext. intros r _. rewrite <- Sigma_scale_r. reflexivity.
  Qed.
  (** matrix elements between rotated determinants *)
  Lemma rops_sum {A} (J : list A) k (f : A -> vec) l : forall t, rops l (fun s => sum J (fun a => k a * f a s))%Qc t = sum J (fun a => k a * rops l (f a) t)%Qc.
  Proof. induction l as [|[c m] r IH]; intros t; [reflexivity|]. cbn [RotInvProofs2.rops]. rewrite (rop_ext W no U c m _ _ t IH). apply (rop_sum W no U c m J k (fun a => rops r (f a))). Qed.
  Lemma ip_rops b d l : in_space W no b -> in_space W no d -> (forall y, In y l -> mode_ok no (snd y)) -> ip (phi b) (rops l (phi d)) = braket b (ops_of W l) d.
  Proof.
    intros Sb Sd Hl. destruct (rops_phi W no U Hno HU l d Hl Sd) as [E S']. unfold braket.
    rewrite (ip_ext W no _ (phi b) _ _ (fun s => eq_refl) E). destruct (apply (ops_of W l) d) as [[sg d']|]; [|apply ip_zero; reflexivity].
    rewrite ip_scale, (ortho W no U Hno HU b d' Sb S'). destruct (d' =? b)%N; ring.
  Qed.
  Lemma ip_ham b d : in_space W no b -> in_space W no d -> ip (phi b) (fun t => hsum no T' V' (fun l => rops l (phi d) t)) = ham W no T' V' b d.
  Proof.
    intros Sb Sd. rewrite ham_hsum, hsum_flat.
    transitivity (ip (phi b) (fun t => sum (hterms no T' V') (fun x => fst x * rops (snd x) (phi d) t))%Qc).
    - apply ip_ext; [reflexivity|]. intros s. apply hsum_flat.
    - rewrite (ip_sum W no (hterms no T' V') fst (fun x => rops (snd x) (phi d))). apply sum_ext. intros x Hx. f_equal. apply ip_rops; [exact Sb|exact Sd|]. exact (hterms_ok no T' V' x Hx).
  Qed.

  (** ** where rotated determinants are not zero *)
  Definition supp (a b : nat) (v : vec) : Prop := forall t, v t <> 0%Qc -> in_space W no t /\ size_is (alpha W t) a /\ size_is (beta W t) b.
  Lemma sum_nonzero {A} (l : list A) f : sum l f <> 0%Qc -> exists a, In a l /\ f a <> 0%Qc.
  Proof.
    induction l as [|a r IH]; intros H; [exfalso; apply H; reflexivity|]. destruct (Qc_eq_dec (f a) 0) as [E|E].
    - destruct IH as (b & Hb & Fb); [intros X; apply H; cbn; rewrite E, X; ring|]. exists b. split; [right; exact Hb|exact Fb].
    - exists a. split; [left; reflexivity|exact E].
  Qed.
  Lemma size_flip x q n : size_is x n -> tb x q = false -> size_is (flipb x q) (S n).
  Proof.
    intros (l & Nd & Hl & Len) B. exists (q :: l). split; [constructor; [rewrite Hl, B; discriminate|exact Nd]|]. split; [|cbn; rewrite Len; reflexivity].
    intros i. rewrite tb_flip. cbn [In]. rewrite Hl. destruct (Nat.eqb_spec i q) as [->|D]; [rewrite B; cbn; tauto|]. rewrite Bool.xorb_false_r. split; [intros [E|E]; [congruence|exact E]|auto].
  Qed.
  Lemma supp_rop (s : bool) (p a b : nat) v : supp a b v -> supp (if s then a else S a) (if s then S b else b) (rop true (s, p) v).
  Proof.
    intros H t Ht. unfold RotInvProofs.rop in Ht. apply sum_nonzero in Ht. destruct Ht as (q & Hq & Ht). apply in_seq in Hq. cbn [fst snd] in Ht. unfold opv in Ht.
    destruct (Bool.eqb (tb t (so W s q)) true) eqn:B; [|exfalso; apply Ht; ring]. apply Bool.eqb_prop in B.
    assert (Nz : v (flipb t (so W s q)) <> 0%Qc) by (intros X; apply Ht; rewrite X; ring). destruct (H _ Nz) as (Sp & A1 & A2).
    set (x := flipb t (so W s q)) in *. assert (Et : t = flipb x (so W s q)) by (unfold x; symmetry; apply flip_flip).
    assert (Bx : tb (str W s x) q = false). { rewrite <- (tb_str W s x q) by (right; lia). unfold x. rewrite tb_flip_same, B. reflexivity. }
    split; [rewrite Et; apply (flip_space W no Hno x (s, q)); [unfold mode_ok; cbn; lia|exact Sp]|].
    rewrite Et. pose proof (str_flip W s x q ltac:(lia)) as F1. pose proof (str_flip_other W s x q ltac:(lia)) as F2. destruct s; unfold str in *; cbn [negb] in *; rewrite F1, F2; split; auto; apply size_flip; assumption.
  Qed.
  Definition occ (s : bool) (d : N) (l : list mode) : nat := length (filter (fun m => Bool.eqb (fst m) s && tb d (pos W m)) l).
  Lemma supp_phix d l : supp (occ false d l) (occ true d l) (phix W no U l d e0).
  Proof.
    induction l as [|[s p] r IH].
    - intros t Ht. change (e0 t <> 0%Qc) in Ht. unfold e0 in Ht. destruct (N.eqb_spec t 0%N) as [Et|D]; [subst t|exfalso; apply Ht; reflexivity].
      assert (Z0 : alpha W 0 = 0%N) by (unfold alpha; apply N.mod_0_l; apply N.pow_nonzero; discriminate).
      assert (Z1 : beta W 0 = 0%N) by (unfold beta; apply N.div_0_l; apply N.pow_nonzero; discriminate).
      unfold in_space, occ. cbn [filter length]. rewrite Z0, Z1. split; [split; apply wf_0|]. split; apply size_is_0; reflexivity.
    - unfold occ in *. cbn [phix filter]. cbn [fst]. destruct (tb d (pos W (s, p))) eqn:B.
      + pose proof (supp_rop s p _ _ _ IH) as X. destruct s; cbn [Bool.eqb andb]; exact X.
      + rewrite !Bool.andb_false_r. exact IH.
  Qed.
  Lemma occ_size s d : in_space W no d -> size_is (str W s d) (occ s d (modes no)).
  Proof.
    intros Sp. exists (filter (fun q => tb d (so W s q)) (seq 0 no)). split; [apply NoDup_filter, seq_NoDup|]. split.
    - intros i. rewrite filter_In, in_seq. rewrite tb_str_all. split.
      + intros [H1 H2]. rewrite H2. destruct s; [reflexivity|]. cbn [orb]. rewrite (proj2 (Nat.ltb_lt i (W / 2))) by lia. reflexivity.
      + intros H. apply andb_true_iff in H. destruct H as [H1 H2]. split; [|exact H2]. split; [lia|].
        destruct (Nat.lt_ge_cases i no) as [L|L]; [lia|]. exfalso. assert (Wf : wf no (str W s d)) by (destruct s; [exact (proj2 Sp)|exact (proj1 Sp)]).
        pose proof (Wf i L) as X. rewrite tb_str_all, H1, H2 in X. discriminate X.
    - unfold occ, modes. rewrite filter_app, app_length.
      assert (Y : forall s', filter (fun m : mode => Bool.eqb (fst m) s && tb d (pos W m)) (map (pair s') (seq 0 no)) = if Bool.eqb s' s then map (pair s') (filter (fun q => tb d (so W s' q)) (seq 0 no)) else []).
      { intros s'. generalize (seq 0 no). intros l. induction l as [|x r IH]; [destruct (Bool.eqb s' s); reflexivity|]. cbn [map filter]. rewrite IH. unfold pos. cbn [fst snd]. destruct (Bool.eqb s' s); cbn [andb]; [|reflexivity].
        destruct (tb d (so W s' x)); reflexivity. }
      rewrite !Y. destruct s; cbn [Bool.eqb length]; rewrite map_length; lia.
  Qed.
  Lemma phi_support na nb D d t : whole_space W no na nb D -> In d D -> phi d t <> 0%Qc -> In t D.
  Proof.
    intros [_ HD] Hd Ht. apply HD in Hd. destruct Hd as (Sp & A & B). destruct (supp_phix d (modes no) t Ht) as (St & A' & B').
    pose proof (size_is_fun _ _ _ A (occ_size false d Sp)) as Ea. pose proof (size_is_fun _ _ _ B (occ_size true d Sp)) as Eb. rewrite <- Ea in A'. rewrite <- Eb in B'. apply HD. auto.
  Qed.

  (** ** the same wave function in the original determinants *)
  Section WF.
    Variables (na nb : nat) (D : list N) (Y : list Qc).
    Hypothesis HD : whole_space W no na nb D.
    Definition wfv : vec := fun t => sum (seq 0 (length D)) (fun j => nth j Y 0 * phi (nth j D 0%N) t)%Qc.
    Lemma D_in j : j < length D -> In (nth j D 0%N) D. Proof. intros H. apply nth_In, H. Qed.
    Lemma D_space d : In d D -> in_space W no d. Proof. intros H. apply HD in H. tauto. Qed.
    Lemma wfv_out t : ~ In t D -> wfv t = 0%Qc.
    Proof.
      intros H. apply sum_zero. intros j Hj. apply in_seq in Hj. destruct (Qc_eq_dec (phi (nth j D 0%N) t) 0) as [E|E]; [rewrite E; ring|]. exfalso. apply H. apply (phi_support na nb D (nth j D 0%N) t HD); [apply D_in; lia|exact E].
    Qed.
    Lemma wfv_e t : wfv t = sum D (fun s => wfv s * e_ s t)%Qc.
    Proof.
      destruct (in_dec N.eq_dec t D) as [H|H].
      - rewrite (sum_single D t); [unfold e_; rewrite N.eqb_refl; ring|exact (proj1 HD)|exact H|]. intros b _ Hb. unfold e_. rewrite (proj2 (N.eqb_neq b t) Hb). ring.
      - rewrite wfv_out by exact H. symmetry. apply sum_zero. intros s Hs. unfold e_. destruct (N.eqb_spec s t); [subst; contradiction|ring].
    Qed.
    Lemma sum_states f : (forall t, ~ In t D -> f t = 0%Qc) -> sum (states W no) f = sum D f.
    Proof.
      intros H. apply sum_support; [apply nodup_states|exact (proj1 HD)| |intros a _ Ha; apply H, Ha]. intros a Ha. pose proof (D_space a Ha) as Sp. apply (proj2 (in_states W no Hno a)). intros i Hi. destruct (tb a i) eqn:B; [|reflexivity]. destruct (space_bits W no Hno a i Sp B); lia.
    Qed.
    Lemma wfv_norm : sum D (fun s => wfv s * wfv s)%Qc = dot (length D) Y Y.
    Proof.
      rewrite <- (sum_states (fun s => wfv s * wfv s)%Qc) by (intros t Ht; rewrite (wfv_out t Ht); ring). change (ip wfv wfv = dot (length D) Y Y).
      unfold wfv at 2. rewrite ip_sum. unfold dot, Sigma. apply sum_ext. intros j Hj. apply in_seq in Hj. f_equal. rewrite ip_sym. unfold wfv. rewrite ip_sum.
      rewrite (sum_single (seq 0 (length D)) j); [|apply seq_NoDup|apply in_seq; lia|].
      - rewrite (ortho W no U Hno HU); [rewrite N.eqb_refl; ring| |]; apply D_space, D_in; lia.
      - intros i Hi Ne. apply in_seq in Hi. rewrite (ortho W no U Hno HU); [|apply D_space, D_in; lia|apply D_space, D_in; lia].
        destruct (N.eqb_spec (nth i D 0%N) (nth j D 0%N)) as [E|E]; [|ring]. exfalso. apply Ne. exact (proj1 (NoDup_nth D 0%N) (proj1 HD) i j ltac:(lia) ltac:(lia) E).
    Qed.
    Lemma wfv_energy : sum D (fun t => wfv t * sum D (fun s => wfv s * ham W no T V t s))%Qc =
      sum (seq 0 (length D)) (fun i => nth i Y 0 * sum (seq 0 (length D)) (fun j => nth j Y 0 * ham W no T' V' (nth i D 0%N) (nth j D 0%N)))%Qc.
    Proof.
      transitivity (ip wfv (fun t => hsum no T' V' (fun l => rops l wfv t))).
      - transitivity (sum (states W no) (fun t => wfv t * sum D (fun s => wfv s * ham W no T V t s))%Qc); [symmetry; apply sum_states; intros t Ht; rewrite (wfv_out t Ht); ring|].
        unfold RotInvProofs2.ip. apply sum_ext. intros t _. f_equal. rewrite same_hamiltonian.
        transitivity (hsum no T V (fun l => sum D (fun s => wfv s * oops W l (e_ s) t))%Qc).
        + rewrite (hsum_sum no T V D wfv (fun s l => oops W l (e_ s) t)). apply sum_ext. intros s _. f_equal. rewrite ham_hsum. apply hsum_ext. intros l _. symmetry. apply oops_e.
        + apply hsum_ext. intros l _. rewrite <- (oops_sum W D wfv e_ l t). apply oops_ext. intros s. symmetry. apply wfv_e.
      - transitivity (ip wfv (fun t => sum (seq 0 (length D)) (fun j => nth j Y 0 * hsum no T' V' (fun l => rops l (phi (nth j D 0%N)) t)))%Qc).
        + apply ip_ext; [reflexivity|]. intros t. rewrite <- (hsum_sum no T' V' (seq 0 (length D)) (fun j => nth j Y 0%Qc) (fun j l => rops l (phi (nth j D 0%N)) t)). apply hsum_ext. intros l _.
          unfold wfv. apply (rops_sum (seq 0 (length D)) (fun j => nth j Y 0%Qc) (fun j => phi (nth j D 0%N))).
        + rewrite (ip_sum W no (seq 0 (length D)) (fun j => nth j Y 0%Qc) (fun j t => hsum no T' V' (fun l => rops l (phi (nth j D 0%N)) t))).
          transitivity (sum (seq 0 (length D)) (fun j => sum (seq 0 (length D)) (fun i => nth i Y 0 * (nth j Y 0 * ham W no T' V' (nth i D 0%N) (nth j D 0%N))))%Qc).
          * apply sum_ext. intros j Hj. apply in_seq in Hj. rewrite ip_sym. unfold wfv. rewrite ip_sum, <- sum_scale. apply sum_ext. intros i Hi. apply in_seq in Hi. rewrite ip_sym, ip_ham by (apply D_space, D_in; lia). ring.
          * rewrite sum_swap. apply sum_ext. intros i _. apply sum_scale.
    Qed.
    Lemma same_state : exists Z, length Z = length D /\ dot (length D) Z Z = dot (length D) Y Y /\
      expectation (length D) (ci_matrix W (mk_ints no T V) 0%Qc D) Z = expectation (length D) (ci_matrix W (mk_ints no T' V') 0%Qc D) Y.
    Proof.
      exists (map wfv D). assert (Nth : forall i, i < length D -> nth i (map wfv D) 0%Qc = wfv (nth i D 0%N)).
      { intros i Hi. rewrite (nth_indep (map wfv D) 0%Qc (wfv 0%N)) by (rewrite map_length; exact Hi). apply map_nth. }
      split; [apply map_length|]. split.
      - rewrite <- wfv_norm, <- (Sigma_list D (fun s => wfv s * wfv s)%Qc). apply Sigma_ext. intros i Hi. rewrite (Nth i Hi). reflexivity.
      - unfold expectation, matvec. transitivity (sum D (fun t => wfv t * sum D (fun s => wfv s * ham W no T V t s))%Qc).
        + rewrite <- (Sigma_list D (fun t => wfv t * sum D (fun s => wfv s * ham W no T V t s))%Qc). apply Sigma_ext. intros i Hi. rewrite (Nth i Hi). f_equal.
          rewrite <- (Sigma_list D (fun s => wfv s * ham W no T V (nth i D 0%N) s)%Qc). apply Sigma_ext. intros j Hj. rewrite (Nth j Hj), ci_zero. cbn [norb T_pq V_pqrs]. ring.
        + rewrite wfv_energy. apply sum_ext. intros i _. f_equal. apply sum_ext. intros j _. rewrite ci_zero. cbn [norb T_pq V_pqrs]. ring.
    Qed.
  End WF.
End ROT.

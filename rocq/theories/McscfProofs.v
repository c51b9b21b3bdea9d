(** Lemmas for the orbital optimisation: outcomes, rotations, integrals. *)
From Coq Require Import QArith Qcanon Qcabs Bool Lqa.
From Verif Require Import Base SD Sums Ham Nondet Asci AsciSort Mem MemProofs Dense DenseSpec DenseProofs FockMatProofs RotProofs HessProofs LinRespProofs ExpandProofs
  Diis DiisSpec DiisProofs DiisProofs2 Davidson DavProofs DavProofs2 DenseGlue Mcscf McscfSpec.
Local Open Scope nat_scope.

(** ** outcomes *)
Definition outc {A} (P : A -> Prop) (F : err -> Prop) (m : res A) : Prop := match m with Ok a => P a | Err e => F e end.
Definition outcome {A} (P : A -> Prop) (F : err -> Prop) (m : nd A) : Prop := forall r, m r -> outc P F r.
Lemma outc_bind {A B} (P : A -> Prop) (Q : B -> Prop) F (m : res A) f : outc P F m -> (forall a, P a -> outc Q F (f a)) -> outc Q F (do x <- m; f x).
Proof. destruct m as [a|e]; cbn; auto. Qed.
Lemma outc_ok {A B} (Q : B -> Prop) F (m : res A) a (f : A -> res B) : m = Ok a -> outc Q F (f a) -> outc Q F (do x <- m; f x).
Proof. intros -> H. exact H. Qed.
Lemma outc_weaken {A} (P Q : A -> Prop) F m : outc P F m -> (forall a, P a -> Q a) -> outc Q F m.
Proof. destruct m; cbn; auto. Qed.
Lemma outcome_bind {A B} (P : A -> Prop) (Q : B -> Prop) F (m : nd A) f : outcome P F m -> (forall a, P a -> outcome Q F (f a)) -> outcome Q F (nbind m f).
Proof. intros H1 H2 r [(e & He & ->)|(a & Ha & Hr)]; [exact (H1 _ He)|]. apply (H2 a (H1 _ Ha)). exact Hr. Qed.
Lemma outcome_det {A B} (P : A -> Prop) (Q : B -> Prop) F (m : res A) f : outc P F m -> (forall a, P a -> outcome Q F (f a)) -> outcome Q F (nbind (det m) f).
Proof. intros H1 H2. apply (outcome_bind P); auto. intros r ->. exact H1. Qed.
Lemma outcome_ok {A B} (Q : B -> Prop) F (m : res A) a (f : A -> nd B) : m = Ok a -> outcome Q F (f a) -> outcome Q F (nbind (det m) f).
Proof. intros -> H. apply (outcome_det (fun x => x = a)); [reflexivity|]. intros ? ->. exact H. Qed.
Lemma outcome_ret {A} (P : A -> Prop) F a : P a -> outcome P F (ret a).
Proof. intros H r ->. exact H. Qed.
Lemma outcome_weaken {A} (P Q : A -> Prop) F m : outcome P F m -> (forall a, P a -> Q a) -> outcome Q F m.
Proof. intros H1 H2 r Hr. eapply outc_weaken; [exact (H1 r Hr)|exact H2]. Qed.

(** ** matrices *)
Lemma at2_cell n A B : 0 < n -> length A = n * n -> length B = n * n -> same2 n (at2 A n) (at2 B n) -> A = B.
Proof.
  intros Hn HA HB H. apply (nth_ext' A B 0%Qc); [lia|]. intros x Hx. rewrite HA in Hx.
  assert (E : x = x mod n + x / n * n) by (rewrite (Nat.div_mod x n) at 1; lia).
  rewrite E. apply H; [apply Nat.mod_upper_bound; lia|apply Nat.div_lt_upper_bound; lia].
Qed.
Lemma fits2_packed A n : length A = n * n -> fits2 A n n n.
Proof. intros H. split; [lia|]. intros i j Hi Hj. rewrite H. pose proof (cell n n i j). nia. Qed.
Lemma fits2_packed' A n m : length A = n * m -> fits2 A n n m.
Proof. intros H. split; [lia|]. intros i j Hi Hj. rewrite H. pose proof (cell n m i j). nia. Qed.
Lemma fits2_packed_ge A n : n * n <= length A -> fits2 A n n n.
Proof. intros H. split; [lia|]. intros i j Hi Hj. pose proof (cell n n i j). nia. Qed.
Lemma pos4_bound n i j k l : i < n -> j < n -> k < n -> l < n -> i + j * n + k * n * n + l * n * n * n < n * n * (n * n).
Proof.
  intros Hi Hj Hk Hl. assert (i + j * n <= n * n - 1) by nia. assert (k + l * n <= n * n - 1) by nia.
  replace (i + j * n + k * n * n + l * n * n * n) with (i + j * n + (k + l * n) * (n * n)) by ring.
  assert (0 < n * n) by nia. nia.
Qed.
Lemma fits4_packed_ge A n : n * n * (n * n) <= length A -> fits4 A n n.
Proof. intros H. split; [lia|]. intros i j k l Hi Hj Hk Hl. pose proof (pos4_bound n i j k l Hi Hj Hk Hl). lia. Qed.
Lemma fits2_length A LD n : 0 < n -> fits2 A LD n n -> n * n <= length A.
Proof. intros Hn [H1 H2]. specialize (H2 (n - 1) (n - 1)). nia. Qed.
Lemma fits4_length A n : 0 < n -> fits4 A n n -> n * n * (n * n) <= length A.
Proof.
  intros Hn [_ H2]. specialize (H2 (n - 1) (n - 1) (n - 1) (n - 1)).
  assert (n - 1 + (n - 1) * n + (n - 1) * n * n + (n - 1) * n * n * n = n * n * (n * n) - 1).
  { destruct n; [lia|]. replace (S n - 1) with n by lia. nia. }
  assert (0 < n * n * (n * n)) by nia. lia.
Qed.

Lemma identity_sym i j : identity i j = identity j i.
Proof. unfold identity. rewrite Nat.eqb_sym. reflexivity. Qed.
Lemma Sigma_id n p f : p < n -> Sigma n (fun i => identity i p * f i)%Qc = f p.
Proof. intros H. unfold identity. apply (Sigma_delta n p f H). Qed.
Lemma identity_orthogonal n : orthogonal n identity.
Proof. intros i j Hi Hj. rewrite (Sigma_id n i (fun l => identity l j)) by auto. reflexivity. Qed.
Lemma congruence2_id n X p q : p < n -> q < n -> congruence2 n identity X p q = X p q.
Proof.
  intros Hp Hq. unfold congruence2.
  rewrite (Sigma_ext n _ (fun i => identity i p * X i q)%Qc); [apply (Sigma_id n p (fun i => X i q)); auto|]. intros i Hi.
  rewrite (Sigma_ext n _ (fun j => identity j q * (identity i p * X i j))%Qc); [apply (Sigma_id n q (fun j => identity i p * X i j)%Qc); auto|]. intros j _. ring.
Qed.
Lemma congruence4_id n X p q r s : p < n -> q < n -> r < n -> s < n -> congruence4 n identity X p q r s = X p q r s.
Proof.
  intros Hp Hq Hr Hs. unfold congruence4.
  rewrite (Sigma_ext n _ (fun i => identity i p * X i q r s)%Qc); [apply (Sigma_id n p (fun i => X i q r s)); auto|]. intros i Hi.
  rewrite (Sigma_ext n _ (fun j => identity j q * (identity i p * X i j r s))%Qc); [apply (Sigma_id n q (fun j => identity i p * X i j r s)%Qc); auto|]. intros j Hj.
  rewrite (Sigma_ext n _ (fun k => identity k r * (identity j q * (identity i p * X i j k s)))%Qc); [apply (Sigma_id n r (fun k => identity j q * (identity i p * X i j k s))%Qc); auto|]. intros k Hk.
  rewrite (Sigma_ext n _ (fun l => identity l s * (identity k r * (identity j q * (identity i p * X i j k l))))%Qc); [apply (Sigma_id n s (fun l => identity k r * (identity j q * (identity i p * X i j k l)))%Qc); auto|].
  intros l Hl. ring.
Qed.
Lemma orthogonal_product n A B : orthogonal n A -> orthogonal n B -> orthogonal n (product n A B).
Proof.
  intros HA HB i j Hi Hj. unfold product.
  transitivity (Sigma n (fun a => Sigma n (fun b => B a i * B b j * Sigma n (fun l => A l a * A l b)))%Qc).
  - rewrite (Sigma_ext n _ (fun l => Sigma n (fun a => Sigma n (fun b => B a i * B b j * (A l a * A l b))))%Qc).
    + rewrite Sigma_swap. apply Sigma_ext. intros a _. rewrite Sigma_swap. apply Sigma_ext. intros b _. apply Sigma_scale.
    + intros l _. rewrite <- Sigma_scale_r. apply Sigma_ext. intros a _. rewrite <- Sigma_scale. apply Sigma_ext. intros b _. ring.
  - rewrite <- HB by auto. apply Sigma_ext. intros a Ha.
    rewrite (Sigma_ext n _ (fun b => identity b a * (B a i * B b j))%Qc); [apply (Sigma_id n a (fun b => B a i * B b j)%Qc); auto|].
    intros b Hb. rewrite HA by auto. unfold identity. rewrite (Nat.eqb_sym b a). ring.
Qed.
Lemma orthogonal_same n A B : same2 n A B -> orthogonal n A -> orthogonal n B.
Proof. intros H HA i j Hi Hj. rewrite <- HA by auto. apply Sigma_ext. intros l Hl. rewrite <- !H by auto. reflexivity. Qed.

(** symmetry of the transformed integrals *)
Lemma congruence2_sym n U T : symmetric2 n T -> symmetric2 n (congruence2 n U T).
Proof.
  intros H p q _ _. unfold congruence2. rewrite Sigma_swap. apply Sigma_ext. intros j Hj. apply Sigma_ext. intros i Hi. rewrite (H i j) by auto. ring.
Qed.
Lemma congruence4_eight n U V : eightfold n V -> eightfold n (congruence4 n U V).
Proof.
  intros H p q r s Hp Hq Hr Hs. split.
  - apply (congruence4_pair' n U V); auto. apply eight_pair. exact H.
  - unfold congruence4. rewrite Sigma_swap. apply Sigma_ext. intros j Hj. apply Sigma_ext. intros i Hi. apply Sigma_ext. intros k Hk. apply Sigma_ext. intros l Hl.
    destruct (H i j k l) as [_ ->]; auto. ring.
Qed.
Lemma inactive_fock_sym n ni T V : ni <= n -> symmetric2 n T -> eightfold n V -> symmetric2 n (inactive_fock ni T V).
Proof.
  intros Hni HT HV p q Hp Hq. unfold inactive_fock. rewrite (HT p q) by auto. f_equal. apply Sigma_ext. intros i Hi.
  rewrite (eight_qp n V p q i i) by (auto; lia). rewrite (eight_swap n V p i i q) by (auto; lia). rewrite (eight_qp n V i q p i) by (auto; lia).
  rewrite (eight_sr n V q i p i) by (auto; lia). reflexivity.
Qed.
Lemma active_T_sym n ni na T V : ni + na <= n -> symmetric2 n T -> eightfold n V -> symmetric2 na (active_T ni T V).
Proof. intros H HT HV p q Hp Hq. unfold active_T, shift2. apply (inactive_fock_sym n); auto; lia. Qed.
Lemma active_V_eight n ni na V : ni + na <= n -> eightfold n V -> eightfold na (active_V ni V).
Proof. intros H HV p q r s Hp Hq Hr Hs. unfold active_V, shift4. apply HV; lia. Qed.
Lemma same2_sym n A B : same2 n A B -> symmetric2 n A -> symmetric2 n B.
Proof. intros H HA p q Hp Hq. rewrite <- !H by auto. auto. Qed.
Lemma same4_eight n A B : same4 n A B -> eightfold n A -> eightfold n B.
Proof. intros H HA p q r s Hp Hq Hr Hs. rewrite <- !H by auto. auto. Qed.

(** ** compute_orbital_rotation *)
Lemma mapM_seq_ok {B} (f : nat -> res B) n d : (forall i, i < n -> exists b, f i = Ok b) ->
  exists r, mapM f (seq 0 n) = Ok r /\ length r = n /\ forall i, i < n -> f i = Ok (nth i r d).
Proof.
  intros H. assert (E : exists r, mapM f (seq 0 n) = Ok r).
  { assert (Hs : forall i, In i (seq 0 n) -> exists b, f i = Ok b) by (intros i Hi; apply in_seq in Hi; apply H; lia).
    revert Hs. generalize (seq 0 n). induction l as [|x l IH]; intros Hs; [exists []; reflexivity|].
    destruct (Hs x) as (b & Eb); [left; reflexivity|]. destruct IH as (r & Er); [intros; apply Hs; right; auto|].
    exists (b :: r). cbn [mapM]. rewrite Eb. cbn [bind]. rewrite Er. reflexivity. }
  destruct E as (r & E). exists r. split; auto. apply (mapM_seq_inv f n r d) in E. exact E.
Qed.
Lemma orbital_rotation_ok expm n alpha K LDK U LDU : 0 < n -> fits2 K LDK n n -> fits2 U LDU n n ->
  exists M, length M = n * n /\ (forall i j, i < n -> j < n -> at2 M n i j = (- alpha * at2 K LDK i j)%Qc) /\
    (forall e, expm n M = Err e -> compute_orbital_rotation expm n alpha K LDK U LDU = Err e) /\
    forall X, expm n M = Ok X -> n * n <= length X ->
      exists U', compute_orbital_rotation expm n alpha K LDK U LDU = Ok U' /\ filled2 U U' LDU n n (at2 X n).
Proof.
  intros Hn HK HU. unfold compute_orbital_rotation.
  destruct (mapM_seq_ok (fun x => do k <- at_ K (x mod n + x / n * LDK); Ok (- alpha * k)%Qc) (n * n) 0%Qc) as (M & EM & LM & RM).
  { intros x Hx. assert (Hm : x mod n < n) by (apply Nat.mod_upper_bound; lia). assert (Hd : x / n < n) by (apply Nat.div_lt_upper_bound; lia).
    rewrite (read2 K LDK n n) by auto. cbn [bind]. eauto. }
  exists M. split; auto. split.
  { intros i j Hi Hj. assert (Hx : i + j * n < n * n) by (pose proof (cell n n i j); nia). specialize (RM _ Hx). destruct (cellmod n i j Hi) as [E1 E2].
    rewrite E1, E2, (read2 K LDK n n) in RM by auto. cbn [bind] in RM. injection RM as RM. unfold at2 at 1. rewrite <- RM. reflexivity. }
  rewrite EM. cbn [bind]. split; [intros e ->; reflexivity|]. intros X EX LX. rewrite EX. cbn [bind].
  apply (fill_matrix n n LDU (at2 X n)); auto. intros s i j Hi Hj. cbv beta.
  rewrite (read2 X n n n) by (auto; apply fits2_packed_ge; auto). reflexivity.
Qed.
Lemma rotation_orthogonal expm n K (U : list Qc) : 0 < n -> exponential expm -> length K = n * n -> antisymmetric n (at2 K n) -> length U = n * n ->
  forall F : err -> Prop, (forall M e, expm n M = Err e -> F e) ->
  outc (fun U' => length U' = n * n /\ orthogonal n (at2 U' n) /\
     exists M X, length M = n * n /\ (forall i j, i < n -> j < n -> at2 M n i j = (- at2 K n i j)%Qc) /\ expm n M = Ok X /\ same2 n (at2 U' n) (at2 X n)) F
   (compute_orbital_rotation expm n 1%Qc K n U n).
Proof.
  intros Hn HE LK AK LU F HF. destruct (orbital_rotation_ok expm n 1%Qc K n U n) as (M & LM & RM & EE & EO); auto using fits2_packed.
  destruct (expm n M) as [X|e] eqn:EX.
  - destruct (HE n M X EX LM) as (LX & OX).
    { intros i j Hi Hj. rewrite !RM by auto. rewrite (AK i j) by auto. ring. }
    destruct (EO X eq_refl) as (U' & E & Hf); [lia|]. rewrite E. cbn [outc]. split; [rewrite (proj1 Hf); exact LU|].
    assert (S : same2 n (at2 U' n) (at2 X n)) by (intros i j Hi Hj; exact (filled2_at _ _ _ _ _ _ i j Hf Hi Hj)). split.
    + apply (orthogonal_same n (at2 X n)); auto. intros i j Hi Hj. symmetry. apply S; auto.
    + exists M, X. split; [exact LM|]. split; [|split; [exact EX|exact S]]. intros i j Hi Hj. rewrite RM by auto. ring.
  - rewrite (EE e eq_refl). cbn [outc]. eapply HF; eauto.
Qed.

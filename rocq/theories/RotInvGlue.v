(** Glue for Props_RotInv. *)
From Coq Require Import QArith Qcanon.
From Verif Require Import Base Bits BitsProofs SD Spec Sums FockSpec FockProofs SDProofs HamProofs3 AsciContrib DenseSpec Dense DenseProofs SlaterCondon Ham DiisSpec DavSpec McscfSpec McscfProofs AsciSpec FreezeSpec FreezeProofs4
  FreezeGlue2 RotInvSpec RotInvProofs RotInvProofs2 RotInvProofs3 RotInvProofs4.
Local Open Scope nat_scope.

(** the determinants form the whole space in some order *)
Lemma some_whole W no na nb : no <= W / 2 -> exists D, whole_space W no na nb D.
Proof.
  intros Hno.
  set (ok := fun d => ((alpha W d <? 2 ^ N.of_nat no)%N && (beta W d <? 2 ^ N.of_nat no)%N && (bs_count (alpha W d) =? na) && (bs_count (beta W d) =? nb))%bool).
  exists (filter ok (states W no)). split; [apply NoDup_filter, nodup_states|]. intros b. rewrite filter_In. unfold ok.
  rewrite !Bool.andb_true_iff, !N.ltb_lt, !Nat.eqb_eq, <- !wf_lt, <- !size_is_count. unfold in_space. split; [tauto|]. intros ((A & B) & C & D). split; [|tauto].
  apply (in_states W no Hno). intros i Hi. destruct (tb b i) eqn:E; [|reflexivity]. destruct (space_bits W no Hno b i (conj A B) E); lia.
Qed.
Section ROT.
  Variables (W no : nat).
  Hypothesis Hno : no <= W / 2.
  Variables (U : nat -> nat -> Qc) (T T' : nat -> nat -> Qc) (V V' : nat -> nat -> nat -> nat -> Qc).
  Hypothesis HR : rotated no U T V T' V'.
  Variables (na nb : nat) (D : list N).
  Hypothesis HD : whole_space W no na nb D.
  Local Notation n := (length D).
  Local Notation A := (ci_matrix W (mk_ints no T V) 0%Qc D).
  Local Notation B := (ci_matrix W (mk_ints no T' V') 0%Qc D).
  Local Notation phi := (phi W no U).
  Lemma rot_states : same_states n A B.
  Proof. intros Y. exact (same_state_full W no Hno U (proj1 HR) T T' V V' HR na nb D HD Y). Qed.
  Lemma phi_e d t : In d D -> phi d t = sum D (fun s => phi d s * e_ s t)%Qc.
  Proof.
    intros Hd. destruct (in_dec N.eq_dec t D) as [H|H].
    - rewrite (sum_single D t); [unfold e_; rewrite N.eqb_refl; ring|exact (proj1 HD)|exact H|]. intros b _ Hb. unfold e_. rewrite (proj2 (N.eqb_neq b t) Hb). ring.
    - transitivity 0%Qc; [destruct (Qc_eq_dec (phi d t) 0) as [E|E]; [exact E|exfalso; apply H; exact (phi_support W no U Hno na nb D d t HD Hd E)]|].
      symmetry. apply sum_zero. intros s Hs. unfold e_. destruct (N.eqb_spec s t); [subst; contradiction|ring].
  Qed.
  Lemma ip_D d v : In d D -> ip W no (phi d) v = Sigma n (fun i => phi d (nth i D 0%N) * v (nth i D 0%N))%Qc.
  Proof.
    intros Hd. rewrite (Sigma_list D (fun t => phi d t * v t)%Qc). unfold ip. apply (sum_states W no Hno na nb D HD).
    intros t Ht. destruct (Qc_eq_dec (phi d t) 0) as [E|E]; [rewrite E; ring|]. exfalso. apply Ht. exact (phi_support W no U Hno na nb D d t HD Hd E).
  Qed.
  Lemma rot_similar : similar n A B.
  Proof.
    assert (HU : orthogonal no U) by exact (proj1 HR).
    assert (Sp : forall i, i < n -> in_space W no (nth i D 0%N)) by (intros i Hi; apply (D_space W no na nb D HD), nth_In, Hi).
    exists (fun i j => phi (nth j D 0%N) (nth i D 0%N)). split.
    - intros i j Hi Hj. rewrite <- (ip_D (nth i D 0%N) (phi (nth j D 0%N))) by (apply nth_In, Hi). rewrite (ortho W no U Hno HU) by (apply Sp; assumption).
      destruct (Nat.eqb_spec i j) as [->|Ne]; [rewrite N.eqb_refl; reflexivity|]. destruct (N.eqb_spec (nth j D 0%N) (nth i D 0%N)) as [E|]; [|reflexivity].
      exfalso. apply Ne. symmetry. exact (proj1 (NoDup_nth D 0%N) (proj1 HD) j i Hj Hi E).
    - intros p q Hp Hq. rewrite ci_zero. cbn [norb T_pq V_pqrs]. rewrite <- (ip_ham W no U Hno HU T' V' (nth p D 0%N) (nth q D 0%N)) by (apply Sp; assumption).
      rewrite ip_D by (apply nth_In, Hp). unfold congruence2. apply Sigma_ext. intros i Hi. rewrite (same_hamiltonian W no U HU T T' V V' HR).
      transitivity (phi (nth p D 0%N) (nth i D 0%N) * sum D (fun s => phi (nth q D 0%N) s * ham W no T V (nth i D 0%N) s))%Qc.
      + f_equal. transitivity (hsum no T V (fun l => sum D (fun s => phi (nth q D 0%N) s * oops W l (e_ s) (nth i D 0%N)))%Qc).
        * apply hsum_ext. intros l _. rewrite <- (oops_sum W D (phi (nth q D 0%N)) e_ l). apply oops_ext. intros s. apply phi_e, nth_In, Hq.
        * rewrite (hsum_sum no T V D (phi (nth q D 0%N)) (fun s l => oops W l (e_ s) (nth i D 0%N))). apply sum_ext. intros s _. f_equal. rewrite ham_hsum. apply hsum_ext. intros l _. apply oops_e.
      + rewrite <- (Sigma_list D (fun s => phi (nth q D 0%N) s * ham W no T V (nth i D 0%N) s)%Qc), <- Sigma_scale. apply Sigma_ext. intros j _. rewrite ci_zero. cbn [norb T_pq V_pqrs]. ring.
  Qed.
End ROT.
Lemma states_bound n A B b : same_states n A B -> spectrum_above n A b -> spectrum_above n B b.
Proof. intros H S Y. destruct (H Y) as (Z & _ & E1 & E2 & _). rewrite <- E1, <- E2. apply S. Qed.
Lemma sum_nonneg_zero {X} (l : list X) f : (forall x, In x l -> (0 <= f x)%Qc) -> sum l f = 0%Qc -> forall x, In x l -> f x = 0%Qc.
Proof.
  induction l as [|a r IH]; intros P E x Hx; [destruct Hx|]. cbn [sum] in E.
  assert (Pr : forall y, In y r -> (0 <= f y)%Qc) by (intros y Hy; apply P; right; exact Hy).
  assert (R : (0 <= sum r f)%Qc). { clear - Pr. induction r as [|b r IH]; [apply Qcle_refl|]. cbn [sum]. rewrite <- (Qcplus_0_r 0). apply Qcplus_le_compat; [apply Pr; left; reflexivity|apply IH; intros y Hy; apply Pr; right; exact Hy]. }
  assert (Fa : (0 <= f a)%Qc) by (apply P; left; reflexivity).
  assert (Z : f a = 0%Qc). { apply Qcle_antisym; [|exact Fa]. rewrite <- E. rewrite <- (Qcplus_0_r (f a)) at 1. apply Qcplus_le_compat; [apply Qcle_refl|exact R]. }
  destruct Hx as [<-|Hx]; [exact Z|]. apply IH; auto. rewrite Z in E. rewrite <- E. ring.
Qed.
Lemma Sigma_square_zero n f : Sigma n (fun i => f i * f i)%Qc = 0%Qc -> forall i, i < n -> f i = 0%Qc.
Proof.
  intros H i Hi. apply square_zero. refine (sum_nonneg_zero (seq 0 n) (fun i => f i * f i)%Qc _ H i _); [intros x _; apply square_nonneg|apply in_seq; lia].
Qed.
Lemma states_eigen n A B lam : same_states n A B -> eigenvalue n B lam -> eigenvalue n A lam.
Proof.
  intros H (Y & k & Hk & Nz & Ev). destruct (H Y) as (Z & _ & E1 & _ & E3). exists Z.
  assert (R : residual2 n A lam Z = 0%Qc).
  { rewrite E3. unfold residual2, norm2. apply sum_zero. intros i Hi. apply in_seq in Hi. rewrite Ev by lia. ring. }
  assert (P : exists k, k < n /\ nth k Z 0%Qc <> 0%Qc).
  { destruct (forallb (fun i => if Qc_eq_dec (nth i Z 0%Qc) 0 then true else false) (seq 0 n)) eqn:F.
    - exfalso. apply Nz. refine (Sigma_square_zero n (fun i => nth i Y 0%Qc) _ k Hk). change (dot n Y Y = 0%Qc). rewrite <- E1. apply sum_zero. intros i Hi.
      rewrite forallb_forall in F. specialize (F i Hi). cbv beta in F. destruct (Qc_eq_dec (nth i Z 0%Qc) 0) as [E|]; [rewrite E; ring|discriminate F].
    - assert (X : exists i, In i (seq 0 n) /\ nth i Z 0%Qc <> 0%Qc).
      { revert F. generalize (seq 0 n). intros l. induction l as [|a r IH]; intros F; [discriminate F|]. cbn [forallb] in F. destruct (Qc_eq_dec (nth a Z 0%Qc) 0) as [E|E].
        - destruct (IH F) as (i & Hi & Ni). exists i. split; [right; exact Hi|exact Ni].
        - exists a. split; [left; reflexivity|exact E]. }
      destruct X as (i & Hi & Ni). apply in_seq in Hi. exists i. split; [lia|exact Ni]. }
  destruct P as (k' & Hk' & Nz'). exists k'. split; [exact Hk'|]. split; [exact Nz'|]. intros i Hi. unfold residual2, norm2 in R.
  pose proof (Sigma_square_zero n (fun i => matvec n A Z i - lam * nth i Z 0)%Qc R i Hi) as X. cbv beta in X.
  transitivity ((matvec n A Z i - lam * nth i Z 0) + lam * nth i Z 0)%Qc; [ring|rewrite X; ring].
Qed.
Section USE.
  Variables (W no : nat).
  Hypothesis Hno : no <= W / 2.
  Variables (U : nat -> nat -> Qc) (T T' : nat -> nat -> Qc) (V V' : nat -> nat -> nat -> nat -> Qc).
  Hypothesis HR : rotated no U T V T' V'.
  Lemma rot_bounds na nb D : whole_space W no na nb D -> forall b,
    spectrum_above (length D) (ci_matrix W (mk_ints no T V) 0%Qc D) b <-> spectrum_above (length D) (ci_matrix W (mk_ints no T' V') 0%Qc D) b.
  Proof.
    intros HD b. split; apply states_bound; [exact (rot_states W no Hno U T T' V V' HR na nb D HD)|].
    exact (rot_states W no Hno _ T' T V' V (rotated_back no U T V T' V' HR) na nb D HD).
  Qed.
  Lemma rot_eigen na nb D : whole_space W no na nb D -> forall lam,
    eigenvalue (length D) (ci_matrix W (mk_ints no T V) 0%Qc D) lam <-> eigenvalue (length D) (ci_matrix W (mk_ints no T' V') 0%Qc D) lam.
  Proof.
    intros HD b. split; apply states_eigen; [exact (rot_states W no Hno _ T' T V' V (rotated_back no U T V T' V' HR) na nb D HD)|].
    exact (rot_states W no Hno U T T' V V' HR na nb D HD).
  Qed.
  Lemma rot_dets na nb dets Y E : valid_dets W no na nb dets -> dot (length dets) Y Y = 1%Qc ->
    expectation (length dets) (ci_matrix W (mk_ints no T' V') 0%Qc dets) Y = E -> full_state W no na nb T V E.
  Proof.
    intros [ND VD] N1 EE. destruct (some_whole W no na nb Hno) as (D & HD).
    destruct (extend_dets W (mk_ints no T' V') dets D Y ND (proj1 HD)) as (X & _ & X1 & X2); [intros d Hd; apply HD, VD, Hd|].
    destruct (rot_states W no Hno U T T' V V' HR na nb D HD X) as (Z & LZ & Z1 & Z2 & _).
    exists D, Z. split; [exact HD|]. split; [exact LZ|]. split; [rewrite Z1, X1; exact N1|rewrite Z2, X2; exact EE].
  Qed.
  Lemma frozen_full ni nt na nb E : frozen_state W no ni nt na nb T' V' E -> full_state W no na nb T V E.
  Proof.
    intros ((dets & Y & ND & _ & VD & N1 & EE) & _). apply (rot_dets na nb dets Y E); auto. split; [exact ND|]. intros d Hd. destruct (VD d Hd) as (A & B & C & _). auto.
  Qed.
End USE.
Lemma full_above W no na nb T V E : full_state W no na nb T V E ->
  forall D b, whole_space W no na nb D -> spectrum_above (length D) (ci_matrix W (mk_ints no T V) 0%Qc D) b -> (b <= E)%Qc.
Proof.
  intros (D0 & Z & H0 & _ & N1 & E0) D b HD S.
  assert (S0 : spectrum_above (length D0) (ci_matrix W (mk_ints no T V) 0%Qc D0) b).
  { apply (spectrum_subset W _ D0 D b (proj1 H0) (proj1 HD)); [intros d Hd; apply HD, H0, Hd|exact S]. }
  specialize (S0 Z). rewrite N1, E0 in S0. rewrite Qcmult_1_r in S0. exact S0.
Qed.

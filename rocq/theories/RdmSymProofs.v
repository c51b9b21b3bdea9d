(** Symmetry of the density matrices that form_rdms computes. *)
From Coq Require Import QArith Qcanon.
From Verif Require Import Base Bits BitsProofs SD Spec SDProofs SDProofs2 SDProofs4 SDProofs5 Sums
  FockSpec FockProofs SlaterCondon Ham HamProofs HamProofs2 HamProofs3 HamProofs4 HamProofs5 HamProofs7 HamProofs8 DenseSpec PropsHamGlue.
Local Open Scope nat_scope.

Definition flipV (V : mat4) : mat4 := fun p q r s => V q p s r.
Definition swapV (V : mat4) : mat4 := fun p q r s => V r s p q.
(** ** what the contributions add, for integrals without symmetry *)
Definition f4 (V : mat4) (o1 v1 o2 v2 : nat) : Qc := (V v1 o1 v2 o2 - V v2 o1 v1 o2 - V v1 o2 v2 o1 + V v2 o2 v1 o1)%Qc.
Definition f22 (V : mat4) (o1 v1 o2 v2 : nat) : Qc := (V v1 o1 v2 o2 + V v2 o2 v1 o1)%Qc.
Definition f2 (V : mat4) (o v p : nat) : Qc := (V v o p p + V p p v o - V v p p o - V p o v p)%Qc.
Definition g2 (V : mat4) (o v p : nat) : Qc := (V v o p p + V p p v o)%Qc.
Definition fd (V : mat4) (oa ob : list nat) : Qc :=
  (sum (list_prod oa oa) (fun qp => V (snd qp) (snd qp) (fst qp) (fst qp) - V (snd qp) (fst qp) (snd qp) (fst qp)) +
   sum (list_prod ob ob) (fun qp => V (snd qp) (snd qp) (fst qp) (fst qp) - V (snd qp) (fst qp) (snd qp) (fst qp)) +
   sum (list_prod ob oa) (fun qp => V (snd qp) (snd qp) (fst qp) (fst qp) + V (fst qp) (fst qp) (snd qp) (snd qp)))%Qc.
Lemma rdm4_all n H bra ket ex val D o1 v1 o2 v2 sg : doubles_sign_indices H bra ket ex = Ok (o1, v1, o2, v2, sg) ->
  o1 < n -> v1 < n -> o2 < n -> v2 < n ->
  exists D', rdm_contributions_4 n H bra ket ex val D = Ok D' /\ forall V, c4 n V D' = (c4 n V D + val * (sgn sg * half * f4 V o1 v1 o2 v2))%Qc.
Proof.
  intros Hs H1 H2 H3 H4. unfold rdm_contributions_4. rewrite Hs. cbn [bind].
  step4 n. step4 n. step4 n. step4 n. eexists. split; [reflexivity|]. intros V. rewrite E2, E1, E0, E. unfold f4. ring.
Qed.
Lemma rdm22_all n H ba ka ea bb kb eb val D o1 v1 s1 o2 v2 s2 :
  single_excitation_sign_indices H ba ka ea = Ok (o1, v1, s1) -> single_excitation_sign_indices H bb kb eb = Ok (o2, v2, s2) ->
  o1 < n -> v1 < n -> o2 < n -> v2 < n ->
  exists D', rdm_contributions_22 n H ba ka ea bb kb eb val D = Ok D' /\ forall V, c4 n V D' = (c4 n V D + val * (sgn s1 * sgn s2 * half * f22 V o1 v1 o2 v2))%Qc.
Proof.
  intros Ha Hb H1 H2 H3 H4. unfold rdm_contributions_22. rewrite Ha. cbn [bind]. rewrite Hb. cbn [bind].
  step4 n. step4 n. eexists. split; [reflexivity|]. intros V. rewrite E0, E. unfold f22. ring.
Qed.
Lemma rdm2_all n H bra ket ex oa ob val D1 D2 o v sg :
  single_excitation_sign_indices H bra ket ex = Ok (o, v, sg) -> o < n -> v < n -> (forall p, In p oa -> p < n) -> (forall p, In p ob -> p < n) ->
  exists D1' D2', rdm_contributions_2 n H bra ket ex oa ob val D1 (Some D2) = Ok (D1', Some D2') /\
    forall V, c4 n V D2' = (c4 n V D2 + val * (sgn sg * half * (sum oa (f2 V o v) + sum ob (g2 V o v))))%Qc.
Proof.
  intros Hs Ho Hv La Lb. unfold rdm_contributions_2. rewrite Hs. cbn [bind].
  destruct (add2_ok n D1 v o (sgn sg * val)) as (D1' & -> & E1); auto. cbn [bind].
  set (w := (val * (sgn sg * half))%Qc).
  edestruct (foldM_c4 n oa (fun D p => do D <- add4 n D v o p p w; do D <- add4 n D p p v o w;
      do D <- add4 n D v p p o (- w)%Qc; add4 n D p o v p (- w)%Qc) (fun V p => (w * f2 V o v p)%Qc)) as (Da & -> & Ea).
  { intros D p Hp. apply La in Hp. step4 n. step4 n. step4 n. step4 n. eexists. split; [reflexivity|].
    intros V. rewrite E3, E2, E0, E. unfold f2. ring. }
  cbn [bind].
  edestruct (foldM_c4 n ob (fun D p => do D <- add4 n D v o p p w; add4 n D p p v o w) (fun V p => (w * g2 V o v p)%Qc)) as (Db & -> & Eb).
  { intros D p Hp. apply Lb in Hp. step4 n. step4 n. eexists. split; [reflexivity|]. intros V. rewrite E0, E. unfold g2. ring. }
  cbn [bind]. exists D1', Db. split; [reflexivity|]. intros V. rewrite Eb, Ea, !sum_scale. unfold w. ring.
Qed.
Lemma rdmdiag_all n oa ob val D1 D2 : (forall p, In p oa -> p < n) -> (forall p, In p ob -> p < n) ->
  exists D1' D2', rdm_contributions_diag n oa ob val D1 (Some D2) = Ok (D1', Some D2') /\
    forall V, c4 n V D2' = (c4 n V D2 + val * (half * fd V oa ob))%Qc.
Proof.
  intros La Lb. unfold rdm_contributions_diag.
  edestruct (foldM_c2 n oa (fun D p => add2 n D p p val) (fun T p => (T p p * val)%Qc)) as (Ea & -> & Qa).
  { intros D p Hp. apply add2_ok; auto. }
  cbn [bind].
  edestruct (foldM_c2 n ob (fun D p => add2 n D p p val) (fun T p => (T p p * val)%Qc)) as (Eb & -> & Qb).
  { intros D p Hp. apply add2_ok; auto. }
  cbn [bind]. set (w := (val * half)%Qc).
  assert (Sm : forall l, (forall p, In p l -> p < n) -> forall D,
    exists D', foldM (list_prod l l) (fun (D : mat4) (qp : nat * nat) => let '(q, p) := qp in
      do D <- add4 n D p p q q w; add4 n D p q p q (- w)%Qc) D = Ok D' /\
      forall V, c4 n V D' = (c4 n V D + sum (list_prod l l) (fun qp =>
        w * (V (snd qp) (snd qp) (fst qp) (fst qp) - V (snd qp) (fst qp) (snd qp) (fst qp))))%Qc).
  { intros l Hl. apply (foldM_c4 n (list_prod l l)). intros D [q p] Hqp. apply in_prod_iff in Hqp.
    destruct Hqp as [A B]. apply Hl in A, B. step4 n. step4 n. eexists. split; [reflexivity|].
    intros V. cbn [fst snd]. rewrite E0, E. ring. }
  destruct (Sm oa La D2) as (Fa & -> & Ra). cbn [bind].
  destruct (Sm ob Lb Fa) as (Fb & -> & Rb). cbn [bind].
  edestruct (foldM_c4 n (list_prod ob oa) (fun (D : mat4) (qp : nat * nat) => let '(q, p) := qp in
      do D <- add4 n D p p q q w; add4 n D q q p p w)
      (fun V qp => (w * (V (snd qp) (snd qp) (fst qp) (fst qp) + V (fst qp) (fst qp) (snd qp) (snd qp)))%Qc))
      as (Fc & -> & Rc).
  { intros D [q p] Hqp. apply in_prod_iff in Hqp. destruct Hqp as [A B]. apply Lb in A. apply La in B.
    step4 n. step4 n. eexists. split; [reflexivity|]. intros V. cbn [fst snd]. rewrite E0, E. ring. }
  cbn [bind]. exists Eb, Fc. split; [reflexivity|]. intros V. rewrite Rc, Rb, Ra, !sum_scale. unfold fd, w. ring.
Qed.

(** ** symmetry of what is added *)
Lemma f4_flip V o1 v1 o2 v2 : f4 (flipV V) o1 v1 o2 v2 = f4 V v1 o1 v2 o2. Proof. unfold f4, flipV. ring. Qed.
Lemma f4_swap V o1 v1 o2 v2 : f4 (swapV V) o1 v1 o2 v2 = f4 V o1 v1 o2 v2. Proof. unfold f4, swapV. ring. Qed.
Lemma f22_flip V o1 v1 o2 v2 : f22 (flipV V) o1 v1 o2 v2 = f22 V v1 o1 v2 o2. Proof. unfold f22, flipV. ring. Qed.
Lemma f22_swap V o1 v1 o2 v2 : f22 (swapV V) o1 v1 o2 v2 = f22 V o1 v1 o2 v2. Proof. unfold f22, swapV. ring. Qed.
Lemma f2_flip V o v p : f2 (flipV V) o v p = f2 V v o p. Proof. unfold f2, flipV. ring. Qed.
Lemma f2_swap V o v p : f2 (swapV V) o v p = f2 V o v p. Proof. unfold f2, swapV. ring. Qed.
Lemma g2_flip V o v p : g2 (flipV V) o v p = g2 V v o p. Proof. unfold g2, flipV. ring. Qed.
Lemma g2_swap V o v p : g2 (swapV V) o v p = g2 V o v p. Proof. unfold g2, swapV. ring. Qed.
Lemma f2_o V o v : f2 V o v o = 0%Qc. Proof. unfold f2. ring. Qed.
Lemma f2_v V o v : f2 V o v v = 0%Qc. Proof. unfold f2. ring. Qed.
Lemma sum_pair {A B} (a : A) (m : list B) f : sum (map (fun y => (a, y)) m) f = sum m (fun b => f (a, b)).
Proof. induction m as [|b m IHm]; cbn [map sum]; [reflexivity|]. rewrite IHm. reflexivity. Qed.
Lemma sum_prod {A B} (l : list A) (m : list B) f : sum (list_prod l m) f = sum l (fun a => sum m (fun b => f (a, b))).
Proof. induction l as [|a l IH]; cbn [list_prod sum]; [reflexivity|]. rewrite sum_app, IH, sum_pair. reflexivity. Qed.
Lemma sum_prod_swap (l : list nat) f : sum (list_prod l l) f = sum (list_prod l l) (fun qp => f (snd qp, fst qp)).
Proof. rewrite !sum_prod. cbn [fst snd]. apply sum_swap. Qed.
Lemma fd_flip V oa ob : fd (flipV V) oa ob = fd V oa ob.
Proof.
  unfold fd, flipV. f_equal. assert (X : forall l, sum (list_prod l l) (fun qp => V (snd qp) (snd qp) (fst qp) (fst qp) - V (fst qp) (snd qp) (fst qp) (snd qp))%Qc =
    sum (list_prod l l) (fun qp => V (snd qp) (snd qp) (fst qp) (fst qp) - V (snd qp) (fst qp) (snd qp) (fst qp))%Qc).
  { intros l. rewrite !sum_minus. f_equal. rewrite sum_prod_swap. reflexivity. }
  f_equal; apply X.
Qed.
Lemma fd_swap V oa ob : fd (swapV V) oa ob = fd V oa ob.
Proof.
  unfold fd, swapV. f_equal; [|apply sum_ext; intros; ring]. assert (X : forall l, sum (list_prod l l) (fun qp => V (fst qp) (fst qp) (snd qp) (snd qp) - V (snd qp) (fst qp) (snd qp) (fst qp))%Qc =
    sum (list_prod l l) (fun qp => V (snd qp) (snd qp) (fst qp) (fst qp) - V (snd qp) (fst qp) (snd qp) (fst qp))%Qc).
  { intros l. rewrite !sum_minus. f_equal. rewrite sum_prod_swap. reflexivity. }
  f_equal; apply X.
Qed.

(** ** excitations there and back *)
Definition sgl2 (n H : nat) (b k : N) : Prop := exists o v s,
  single_excitation_sign_indices H b k (N.lxor b k) = Ok (o, v, s) /\ single_excitation_sign_indices H k b (N.lxor k b) = Ok (v, o, s) /\ o < n /\ v < n /\
  forall p, p <> o -> p <> v -> tb b p = tb k p.
Definition dbl2 (n H : nat) (b k : N) : Prop := exists o1 v1 o2 v2 s,
  doubles_sign_indices H b k (N.lxor b k) = Ok (o1, v1, o2, v2, s) /\ doubles_sign_indices H k b (N.lxor k b) = Ok (v1, o1, v2, o2, s) /\
  o1 < n /\ v1 < n /\ o2 < n /\ v2 < n.
Lemma two_set a b c d : a < b -> c < d -> (forall k, k = a \/ k = b <-> k = c \/ k = d) -> a = c /\ b = d.
Proof. intros H1 H2 H. pose proof (proj1 (H a)). pose proof (proj1 (H b)). pose proof (proj2 (H c)). pose proof (proj2 (H d)). lia. Qed.
Lemma classify2 n H b k m : n <= H -> wf n b -> wf n k -> size_is b m -> size_is k m ->
  (bs_count (N.lxor b k) = 0 /\ b = k) \/ (bs_count (N.lxor b k) = 2 /\ sgl2 n H b k) \/
  (bs_count (N.lxor b k) = 4 /\ dbl2 n H b k) \/ 6 <= bs_count (N.lxor b k).
Proof.
  intros Hn Wb Wk Sb Sk. destruct (moves_exists _ _ _ Sk Sb) as [j M].
  rewrite (count_xor_moves j) by auto.
  assert (LT : forall x p, wf n x -> tb x p = true -> p < n).
  { intros x p Wx Hp. destruct (Nat.ltb_spec p n); auto. rewrite Wx in Hp by auto. discriminate. }
  destruct j as [|[|[|j]]]; [left|right; left|right; right; left|right; right; right; lia].
  - apply moves_0 in M. auto.
  - split; auto. destruct (single_phase H b k) as (o & v & s & E & Io & Iv & _ & E' & _); auto.
    + eapply wf_le; eauto. + eapply wf_le; eauto.
    + exists o, v, s. split; auto. split; auto. split; [|split].
      * apply (LT k); auto. apply (Io o). auto.
      * apply (LT b); auto. apply (Iv v). auto.
      * intros p Ho Hv. pose proof (Io p) as Ip. pose proof (Iv p) as Jp. destruct (tb b p), (tb k p); auto; exfalso; [apply Hv, Jp|apply Ho, Ip]; auto.
  - split; auto. assert (Hb : wf H b) by (eapply wf_le; eauto). assert (Hk : wf H k) by (eapply wf_le; eauto).
    destruct (double_phase H b k) as (o & v & o2 & v2 & s & E & _ & Ho & Hv & Io & Iv & Ap); auto.
    assert (M' : moves 2 b k) by (destruct M; split; auto).
    destruct (double_phase H k b) as (o' & v' & o2' & v2' & s' & E' & _ & Ho' & Hv' & Io' & Iv' & Ap'); auto.
    destruct (two_set o' o2' v v2 Ho' Hv) as [-> ->]; [intros x; rewrite <- Io', <- Iv; reflexivity|].
    destruct (two_set v' v2' o o2 Hv' Ho) as [-> ->]; [intros x; rewrite <- Iv', <- Io; reflexivity|].
    apply apply_adj in Ap. cbn [map adj rev app] in Ap. rewrite Ap in Ap'. injection Ap' as ->.
    exists o, v, o2, v2, s'. split; auto. split; auto. split; [|split; [|split]].
    + apply (LT k); auto. apply (Io o). auto.
    + apply (LT b); auto. apply (Iv v). auto.
    + apply (LT k); auto. apply (Io o2). auto.
    + apply (LT b); auto. apply (Iv v2). auto.
Qed.

Section SYM.
  Variables (W : nat) (HW : spin_width W) (n : nat).
  Hypothesis Hn : n <= W / 2.
  Variables (na nb : nat).
  Local Notation good := (good W n na nb).
  Definition call (b k : N) (val : Qc) (D1 : mat2) (D2 : mat4) : res (mat2 * option mat4) :=
    rdm_contributions n (W / 2) (alpha W b) (alpha W k) (N.lxor (alpha W b) (alpha W k)) (beta W b) (beta W k) (N.lxor (beta W b) (beta W k))
      (positions n (alpha W b)) (positions n (beta W b)) val D1 (Some D2).
  Definition law (b k : N) (Phi : mat4 -> Qc) : Prop := forall val D1 D2, exists D1' D2', call b k val D1 D2 = Ok (D1', Some D2') /\
    forall V, c4 n V D2' = (c4 n V D2 + val * Phi V)%Qc.
  Lemma law_ext b k Phi Psi : (forall V, Phi V = Psi V) -> law b k Phi -> law b k Psi.
  Proof. intros H L val D1 D2. destruct (L val D1 D2) as (A & B & E & R). exists A, B. split; auto. intros V. rewrite <- H. auto. Qed.
  Lemma same_sum (x y : N) o v f : (forall p, p <> o -> p <> v -> tb x p = tb y p) -> f o = 0%Qc -> f v = 0%Qc -> sum (positions n x) f = sum (positions n y) f.
  Proof.
    intros H Ho Hv. assert (P : forall z, sum (positions n z) f = sum (seq 0 n) (fun p => if tb z p then f p else 0%Qc)).
    { intros z. unfold positions. generalize (seq 0 n). intros l. induction l as [|p l IH]; cbn [filter sum]; [reflexivity|].
      destruct (tb z p); cbn [sum]; rewrite IH; [reflexivity|ring]. }
    rewrite !P. apply sum_ext. intros p _. destruct (Nat.eq_dec p o) as [->|No]; [rewrite Ho; destruct (tb x o), (tb y o); reflexivity|].
    destruct (Nat.eq_dec p v) as [->|Nv]; [rewrite Hv; destruct (tb x v), (tb y v); reflexivity|]. rewrite H by auto. reflexivity.
  Qed.
  Lemma pair_law b k : good b -> good k -> exists Phi, law b k Phi /\ law k b (fun V => Phi (flipV V)) /\ forall V, Phi (swapV V) = Phi V.
  Proof.
    intros (Sb & Ab & Bb) (Sk & Ak & Bk). destruct Sb as [Wab Wbb], Sk as [Wak Wbk].
    assert (Lp : forall x p, In p (positions n x) -> p < n) by (intros x p Hp; apply positions_In in Hp; lia).
    destruct (classify2 n (W/2) _ _ _ Hn Wab Wak Ab Ak) as [[Ca Pa]|[[Ca Pa]|[[Ca Pa]|Ca]]];
    destruct (classify2 n (W/2) _ _ _ Hn Wbb Wbk Bb Bk) as [[Cb Pb]|[[Cb Pb]|[[Cb Pb]|Cb]]];
    pose proof Ca as Ca'; rewrite N.lxor_comm in Ca'; pose proof Cb as Cb'; rewrite N.lxor_comm in Cb';
    try (exists (fun _ => 0%Qc); split; [|split]; [| |reflexivity]; intros val D1 D2; exists D1, D2; (split; [|intros; ring]);
         unfold call, rdm_contributions; match goal with |- (if ?x then _ else _) = _ => replace x with true by (symmetry; apply Nat.ltb_lt; lia) end; reflexivity).
    - exists (fun V => half * fd V (positions n (alpha W b)) (positions n (beta W b)))%Qc. split; [|split].
      + intros val D1 D2. unfold call, rdm_contributions. rewrite Ca, Cb. cbn [Nat.add Nat.ltb Nat.leb Nat.eqb andb]. apply rdmdiag_all; apply Lp.
      + intros val D1 D2. unfold call, rdm_contributions. rewrite Ca', Cb'. cbn [Nat.add Nat.ltb Nat.leb Nat.eqb andb]. rewrite <- Pa, <- Pb.
        destruct (rdmdiag_all n (positions n (alpha W b)) (positions n (beta W b)) val D1 D2) as (A & B & E & R); try apply Lp. exists A, B. split; auto. intros V. rewrite R, fd_flip. reflexivity.
      + intros V. rewrite fd_swap. reflexivity.
    - destruct Pb as (o & v & s & P & P' & Ho & Hv & Hs).
      exists (fun V => sgn s * half * (sum (positions n (beta W b)) (f2 V o v) + sum (positions n (alpha W b)) (g2 V o v)))%Qc. split; [|split].
      + intros val D1 D2. unfold call, rdm_contributions. rewrite Ca, Cb. cbn [Nat.add Nat.ltb Nat.leb Nat.eqb andb]. apply rdm2_all; auto; apply Lp.
      + intros val D1 D2. unfold call, rdm_contributions. rewrite Ca', Cb'. cbn [Nat.add Nat.ltb Nat.leb Nat.eqb andb]. rewrite <- Pa.
        destruct (rdm2_all n (W/2) _ _ _ (positions n (beta W k)) (positions n (alpha W b)) val D1 D2 v o s P' Hv Ho) as (A & B & E & R); try apply Lp. exists A, B. split; auto. intros V. rewrite R.
        rewrite (same_sum (beta W k) (beta W b) o v) by (auto using f2_o, f2_v; intros; symmetry; apply Hs; auto).
        rewrite (sum_ext _ (f2 (flipV V) o v) (f2 V v o)) by (intros; apply f2_flip). reflexivity.
      + intros V. f_equal. f_equal; apply sum_ext; intros; [apply f2_swap|apply g2_swap].
    - destruct Pb as (o & v & o2 & v2 & s & P & P' & Ho & Hv & Ho2 & Hv2). exists (fun V => sgn s * half * f4 V o v o2 v2)%Qc. split; [|split].
      + intros val D1 D2. unfold call, rdm_contributions. rewrite Ca, Cb. cbn [Nat.add Nat.ltb Nat.leb Nat.eqb andb].
        destruct (rdm4_all n (W/2) _ _ _ val D2 o v o2 v2 s P Ho Hv Ho2 Hv2) as (D2' & E1 & E3). rewrite E1. cbn [bind]. exists D1, D2'. auto.
      + intros val D1 D2. unfold call, rdm_contributions. rewrite Ca', Cb'. cbn [Nat.add Nat.ltb Nat.leb Nat.eqb andb].
        destruct (rdm4_all n (W/2) _ _ _ val D2 v o v2 o2 s P' Hv Ho Hv2 Ho2) as (D2' & E1 & E3). rewrite E1. cbn [bind]. exists D1, D2'. split; auto. intros V. rewrite E3, f4_flip. reflexivity.
      + intros V. rewrite f4_swap. reflexivity.
    - destruct Pa as (o & v & s & P & P' & Ho & Hv & Hs).
      exists (fun V => sgn s * half * (sum (positions n (alpha W b)) (f2 V o v) + sum (positions n (beta W b)) (g2 V o v)))%Qc. split; [|split].
      + intros val D1 D2. unfold call, rdm_contributions. rewrite Ca, Cb. cbn [Nat.add Nat.ltb Nat.leb Nat.eqb andb]. apply rdm2_all; auto; apply Lp.
      + intros val D1 D2. unfold call, rdm_contributions. rewrite Ca', Cb'. cbn [Nat.add Nat.ltb Nat.leb Nat.eqb andb]. rewrite <- Pb.
        destruct (rdm2_all n (W/2) _ _ _ (positions n (alpha W k)) (positions n (beta W b)) val D1 D2 v o s P' Hv Ho) as (A & B & E & R); try apply Lp. exists A, B. split; auto. intros V. rewrite R.
        rewrite (same_sum (alpha W k) (alpha W b) o v) by (auto using f2_o, f2_v; intros; symmetry; apply Hs; auto).
        rewrite (sum_ext _ (f2 (flipV V) o v) (f2 V v o)) by (intros; apply f2_flip). reflexivity.
      + intros V. f_equal. f_equal; apply sum_ext; intros; [apply f2_swap|apply g2_swap].
    - destruct Pa as (o & v & s & P & P' & Ho & Hv & _). destruct Pb as (o2 & v2 & s2 & P2 & P2' & Ho2 & Hv2 & _). exists (fun V => sgn s * sgn s2 * half * f22 V o v o2 v2)%Qc. split; [|split].
      + intros val D1 D2. unfold call, rdm_contributions. rewrite Ca, Cb. cbn [Nat.add Nat.ltb Nat.leb Nat.eqb andb].
        destruct (rdm22_all n (W/2) _ _ _ _ _ _ val D2 o v s o2 v2 s2 P P2 Ho Hv Ho2 Hv2) as (D2' & E1 & E3). rewrite E1. cbn [bind]. exists D1, D2'. auto.
      + intros val D1 D2. unfold call, rdm_contributions. rewrite Ca', Cb'. cbn [Nat.add Nat.ltb Nat.leb Nat.eqb andb].
        destruct (rdm22_all n (W/2) _ _ _ _ _ _ val D2 v o s v2 o2 s2 P' P2' Hv Ho Hv2 Ho2) as (D2' & E1 & E3). rewrite E1. cbn [bind]. exists D1, D2'. split; [reflexivity|]. intros V. rewrite E3. reflexivity.
      + intros V. rewrite f22_swap. reflexivity.
    - destruct Pa as (o & v & o2 & v2 & s & P & P' & Ho & Hv & Ho2 & Hv2). exists (fun V => sgn s * half * f4 V o v o2 v2)%Qc. split; [|split].
      + intros val D1 D2. unfold call, rdm_contributions. rewrite Ca, Cb. cbn [Nat.add Nat.ltb Nat.leb Nat.eqb andb].
        destruct (rdm4_all n (W/2) _ _ _ val D2 o v o2 v2 s P Ho Hv Ho2 Hv2) as (D2' & E1 & E3). rewrite E1. cbn [bind]. exists D1, D2'. auto.
      + intros val D1 D2. unfold call, rdm_contributions. rewrite Ca', Cb'. cbn [Nat.add Nat.ltb Nat.leb Nat.eqb andb].
        destruct (rdm4_all n (W/2) _ _ _ val D2 v o v2 o2 s P' Hv Ho Hv2 Ho2) as (D2' & E1 & E3). rewrite E1. cbn [bind]. exists D1, D2'. split; auto. intros V. rewrite E3, f4_flip. reflexivity.
      + intros V. rewrite f4_swap. reflexivity.
  Qed.

  (** ** the whole sum *)
  Definition Phi (b k : N) (V : mat4) : Qc := match call b k 1%Qc (fun _ _ => 0%Qc) (fun _ _ _ _ => 0%Qc) with Ok (_, Some D) => c4 n V D | _ => 0%Qc end.
  Lemma c4_zero_r V : c4 n V (fun _ _ _ _ => 0%Qc) = 0%Qc.
  Proof. unfold c4. do 4 (apply sum_zero; intros ? _). ring. Qed.
  Lemma law_Phi b k P : law b k P -> forall V, Phi b k V = P V.
  Proof. intros L V. unfold Phi. destruct (L 1%Qc (fun _ _ => 0%Qc) (fun _ _ _ _ => 0%Qc)) as (A & B & E & R). rewrite E, R, c4_zero_r. ring. Qed.
  Lemma Phi_spec b k : good b -> good k -> law b k (Phi b k) /\ (forall V, Phi k b V = Phi b k (flipV V)) /\ forall V, Phi b k (swapV V) = Phi b k V.
  Proof.
    intros Gb Gk. destruct (pair_law b k Gb Gk) as (P & L1 & L2 & S). pose proof (law_Phi _ _ _ L1) as E1. pose proof (law_Phi _ _ _ L2) as E2.
    split; [|split].
    - apply (law_ext _ _ P); auto.
    - intros V. rewrite E1, E2. reflexivity.
    - intros V. rewrite !E1. apply S.
  Qed.
  Lemma half_zero : alpha W 0 = 0%N /\ beta W 0 = 0%N.
  Proof. split; apply tb_ext; intros i; unfold alpha, beta; [rewrite tb_mod|rewrite tb_div]; unfold tb; rewrite !N.bits_0; [destruct (i <? W / 2)|]; reflexivity. Qed.
  Lemma positions_0 : positions n 0 = [].
  Proof. unfold positions. generalize (seq 0 n). intros l. induction l as [|p l IH]; [reflexivity|]. cbn [filter]. unfold tb at 1. rewrite N.bits_0. exact IH. Qed.
  Lemma Phi_vacuum V : Phi 0 0 V = 0%Qc.
  Proof.
    unfold Phi, call. destruct half_zero as [-> ->]. rewrite positions_0. unfold rdm_contributions. change (bs_count (N.lxor 0 0)) with 0.
    cbn [Nat.add Nat.ltb Nat.leb Nat.eqb andb]. unfold rdm_contributions_diag. cbn [foldM list_prod bind]. apply c4_zero_r.
  Qed.
  Lemma Phi_far b k V : good b -> good k -> 4 < bs_count (N.lxor b k) -> Phi b k V = 0%Qc.
  Proof.
    intros Gb Gk L. pose proof (good_wf W HW n Hn na nb b Gb) as Wb. pose proof (good_wf W HW n Hn na nb k Gk) as Wk.
    assert (Wx : wf W (N.lxor b k)) by (intros i Hi; rewrite tb_xor, Wb, Wk by auto; reflexivity).
    rewrite (count_split W) in L by auto. rewrite (alpha_lo W), (beta_hi W), lo_xor, hi_xor, <- !alpha_lo, <- !beta_hi in L by auto.
    unfold Phi, call, rdm_contributions. match goal with |- context [if ?x then _ else _] => replace x with true by (symmetry; apply Nat.ltb_lt; exact L) end. apply c4_zero_r.
  Qed.
  Definition part (b k : N * Qc) (V : mat4) : Qc := if kept (snd b * snd k) then (snd b * snd k * Phi (fst b) (fst k) V)%Qc else 0%Qc.
  Lemma pair_all bra ci ket cj D1 D2 : good bra -> good ket -> exists D1' D2',
    rdm_pair W n (positions n (alpha W bra)) (positions n (beta W bra)) bra ci (D1, Some D2) (ket, cj) = Ok (D1', Some D2') /\
    forall V, c4 n V D2' = (c4 n V D2 + part (bra, ci) (ket, cj) V)%Qc.
  Proof.
    intros Gb Gk. unfold rdm_pair, part. cbn [fst snd].
    destruct (Nat.eqb_spec (bs_count ket) 0) as [Z|NZ].
    { exists D1, D2. split; [reflexivity|]. intros V.
      pose proof (good_count W HW n Hn na nb _ Gb) as Cb. rewrite <- (good_count W HW n Hn na nb _ Gk), Z in Cb.
      apply count_zero in Z, Cb. subst. rewrite Phi_vacuum. destruct (kept (ci * cj)); ring. }
    pose proof (good_wf W HW n Hn na nb bra Gb) as Wb. pose proof (good_wf W HW n Hn na nb ket Gk) as Wk.
    rewrite lo_xor, hi_xor, <- !alpha_lo, <- !beta_hi by auto.
    destruct (Nat.leb_spec (bs_count (N.lxor bra ket)) 4) as [L|L].
    - fold (kept (ci * cj)). destruct (kept (ci * cj)).
      + apply (Phi_spec bra ket Gb Gk).
      + exists D1, D2. split; [reflexivity|]. intros; ring.
    - exists D1, D2. split; [reflexivity|]. intros V. rewrite Phi_far by auto. destruct (kept (ci * cj)); ring.
  Qed.
  Lemma row_all bra ci : good bra -> forall kets, (forall k, In k kets -> good (fst k)) -> forall D1 D2, exists D1' D2',
    foldM kets (rdm_pair W n (positions n (alpha W bra)) (positions n (beta W bra)) bra ci) (D1, Some D2) = Ok (D1', Some D2') /\
    forall V, c4 n V D2' = (c4 n V D2 + sum kets (fun k => part (bra, ci) k V))%Qc.
  Proof.
    intros Gb. induction kets as [|[ket cj] kets IH]; intros Gk D1 D2; cbn [foldM sum].
    - exists D1, D2. split; [reflexivity|]. intros; ring.
    - destruct (pair_all bra ci ket cj D1 D2 Gb (Gk _ (or_introl eq_refl))) as (A1 & A2 & E1 & E3).
      destruct (IH (fun k Hk => Gk k (or_intror Hk)) A1 A2) as (B1 & B2 & F1 & F3).
      exists B1, B2. rewrite E1. cbn [bind]. split; [exact F1|]. intros V. rewrite F3, E3. ring.
  Qed.
  Lemma form_all kets : (forall k, In k kets -> good (fst k)) -> forall bras, (forall b, In b bras -> good (fst b)) -> forall D1 D2, exists D1' D2',
    form_rdms W n bras kets (D1, Some D2) = Ok (D1', Some D2') /\
    forall V, c4 n V D2' = (c4 n V D2 + sum bras (fun b => sum kets (fun k => part b k V)))%Qc.
  Proof.
    intros Gk. unfold form_rdms. induction bras as [|[bra ci] bras IH]; intros Gb D1 D2; cbn [foldM sum].
    - exists D1, D2. split; [reflexivity|]. intros; ring.
    - pose proof (Gb _ (or_introl eq_refl)) as G. cbn [fst] in G.
      assert (X : exists A1 A2,
        (if bs_count bra =? 0 then Ok (D1, Some D2)
         else do oa <- bits_to_indices (W / 2) (bitset_lo_word W bra);
              do ob <- bits_to_indices (W / 2) (bitset_hi_word W bra);
              foldM kets (rdm_pair W n oa ob bra ci) (D1, Some D2)) = Ok (A1, Some A2) /\
        forall V, c4 n V A2 = (c4 n V D2 + sum kets (fun k => part (bra, ci) k V))%Qc).
      { destruct (Nat.eqb_spec (bs_count bra) 0) as [Z|NZ].
        - exists D1, D2. split; [reflexivity|]. intros V.
          rewrite sum_zero; [ring|]. intros [ket cj] Hk. apply Gk in Hk. unfold part. cbn [fst snd] in *.
          pose proof (good_count W HW n Hn na nb _ Hk) as Ck. rewrite <- (good_count W HW n Hn na nb _ G), Z in Ck.
          apply count_zero in Z, Ck. subst. rewrite Phi_vacuum. destruct (kept (ci * cj)); ring.
        - pose proof (good_wf W HW n Hn na nb bra G) as Wb.
          rewrite <- !alpha_lo, <- !beta_hi by auto. destruct (G) as ([Sa Sb] & _).
          rewrite !bits_to_indices_ok by (eapply wf_le; eauto). cbn [bind].
          rewrite (positions_wf n (W / 2) (alpha W bra)), (positions_wf n (W / 2) (beta W bra)) by auto.
          apply row_all; auto. }
      destruct X as (A1 & A2 & E1 & E3).
      destruct (IH (fun k Hk => Gb k (or_intror Hk)) A1 A2) as (B1 & B2 & F1 & F3).
      exists B1, B2. split; [rewrite E1; cbn [bind]; exact F1|]. intros V. rewrite F3, E3. ring.
  Qed.
  (** the four-index unit array *)
  Definition unit4 (p q r s : nat) : mat4 := fun a b c d => if ((a =? p) && (b =? q)) && ((c =? r) && (d =? s)) then 1%Qc else 0%Qc.
  Lemma c4_ind D p q r s : p < n -> q < n -> r < n -> s < n -> c4 n (unit4 p q r s) D = D p q r s.
  Proof.
    intros Hp Hq Hr Hs. unfold c4, unit4. rewrite <- (sum_ind n p (fun a => D a q r s)) by auto. apply sum_ext. intros a _. destruct (a =? p); cbn [andb].
    2:{ do 3 (apply sum_zero; intros ? _). ring. }
    rewrite <- (sum_ind n q (fun b => D a b r s)) by auto. apply sum_ext. intros b _. destruct (b =? q); cbn [andb].
    2:{ do 2 (apply sum_zero; intros ? _). ring. }
    rewrite <- (sum_ind n r (fun c => D a b c s)) by auto. apply sum_ext. intros c _. destruct (c =? r); cbn [andb].
    2:{ apply sum_zero; intros ? _. ring. }
    rewrite <- (sum_ind n s (fun d => D a b c d)) by auto. apply sum_ext. intros d _. destruct (d =? s); ring.
  Qed.
  Lemma c4_ext V V' D : (forall a b c d, V a b c d = V' a b c d) -> c4 n V D = c4 n V' D.
  Proof. intros H. unfold c4. do 4 (apply sum_ext; intros ? _). rewrite H. reflexivity. Qed.
  Lemma unit4_flip p q r s a b c d : flipV (unit4 p q r s) a b c d = unit4 q p s r a b c d.
  Proof. unfold flipV, unit4. rewrite (andb_comm (b =? p)), (andb_comm (d =? r)). reflexivity. Qed.
  Lemma unit4_swap p q r s a b c d : swapV (unit4 p q r s) a b c d = unit4 r s p q a b c d.
  Proof. unfold swapV, unit4. rewrite (andb_comm ((c =? p) && (d =? q))). reflexivity. Qed.
  Lemma Phi_ext b k V V' : (forall a b c d, V a b c d = V' a b c d) -> Phi b k V = Phi b k V'.
  Proof. intros H. unfold Phi. destruct (call b k 1 _ _) as [[? [D|]]|]; auto. apply c4_ext. auto. Qed.

  Lemma rdms_fourfold wfn D1 D2 : (forall b, In b wfn -> good (fst b)) -> fourfold n D2 -> exists D1' D2',
    form_rdms W n wfn wfn (D1, Some D2) = Ok (D1', Some D2') /\ fourfold n D2'.
  Proof.
    intros G F. destruct (form_all wfn G wfn G D1 D2) as (A & B & E & R). exists A, B. split; auto.
    intros p q r s Hp Hq Hr Hs. destruct (F p q r s Hp Hq Hr Hs) as [F1 F2].
    rewrite <- !(c4_ind B) by auto. rewrite !R. rewrite !(c4_ind D2) by auto. split; f_equal; auto.
    - apply sum_ext. intros b Hb. apply sum_ext. intros k Hk. unfold part. destruct (kept _); auto. f_equal.
      destruct (Phi_spec (fst b) (fst k) (G _ Hb) (G _ Hk)) as (_ & _ & S). rewrite <- (S (unit4 p q r s)). apply Phi_ext. intros. apply unit4_swap.
    - rewrite sum_swap. apply sum_ext. intros b Hb. apply sum_ext. intros k Hk. unfold part. rewrite (Qcmult_comm (snd k)). destruct (kept _); auto. f_equal.
      destruct (Phi_spec (fst b) (fst k) (G _ Hb) (G _ Hk)) as (_ & S & _). rewrite S. apply Phi_ext. intros. apply unit4_flip.
  Qed.
End SYM.

Lemma rdm_symmetry W n wfn na nb g0 G0 : spin_width W -> n <= W / 2 ->
  (forall b, In b wfn -> in_space W n (fst b) /\ size_is (alpha W (fst b)) na /\ size_is (beta W (fst b)) nb) ->
  symmetric2 n g0 -> fourfold n G0 ->
  exists g G, form_rdms W n wfn wfn (g0, Some G0) = Ok (g, Some G) /\ symmetric2 n g /\ fourfold n G.
Proof.
  intros HW Hn H S F. destruct (rdms_fourfold W HW n Hn na nb wfn g0 G0 H F) as (g & G & E & F').
  exists g, G. split; auto. split; auto.
  destruct (c19_acc W n wfn wfn na nb g0 G0 HW Hn) as (g' & G' & E' & I).
  { intros b Hb. apply in_app_or in Hb. apply H. tauto. }
  pose proof (eq_trans (eq_sym E) E') as Q. injection Q as <- <-. clear E'.
  assert (X : forall p q, p < n -> q < n -> g p q = (g0 p q + sum wfn (fun b => sum wfn (fun k =>
      if kept (snd b * snd k) then (snd b * snd k * sum spins (fun s => braket (fst b) [Cre (so W s p); Ann (so W s q)] (fst k)))%Qc else 0%Qc)))%Qc).
  { intros p q Hp Hq. specialize (I (fun a b => if (a =? p) && (b =? q) then 1%Qc else 0%Qc) (fun _ _ _ _ => 0%Qc) (zero_sym n)).
    unfold contract in I. fold (c2 n (fun a b => if (a =? p) && (b =? q) then 1%Qc else 0%Qc) g) in I.
    fold (c2 n (fun a b => if (a =? p) && (b =? q) then 1%Qc else 0%Qc) g0) in I.
    rewrite !c2_ind in I by auto. fold (c4 n (fun _ _ _ _ => 0%Qc) G) in I. fold (c4 n (fun _ _ _ _ => 0%Qc) G0) in I. rewrite !c4_zero in I.
    rewrite <- (ordm_entry W n wfn wfn p q) by auto. rewrite !Qcplus_0_r in I. exact I. }
  intros p q Hp Hq. rewrite !X by auto. f_equal; [apply S; auto|]. rewrite sum_swap. apply sum_ext. intros b _. apply sum_ext. intros k _.
  rewrite (Qcmult_comm (snd k)). destruct (kept _); auto. f_equal. apply sum_ext. intros s _. rewrite braket_adj. reflexivity.
Qed.

(** Reduced density matrices (C19-C21). *)
From Coq Require Import QArith Qcanon Sorting.Permutation.
From Verif Require Import Base Bits BitsProofs SD Spec SDProofs SDProofs2 SDProofs4 SDProofs5 Sums
  FockSpec FockProofs SlaterCondon Ham HamProofs HamProofs2 HamProofs3 HamProofs4 HamProofs5.
Local Open Scope nat_scope.

(** ** updates *)
Definition c2 (n : nat) (T g : mat2) : Qc :=
  sum (seq 0 n) (fun p => sum (seq 0 n) (fun q => T p q * g p q)%Qc).
Definition c4 (n : nat) (V G : mat4) : Qc :=
  sum (seq 0 n) (fun p => sum (seq 0 n) (fun q =>
  sum (seq 0 n) (fun r => sum (seq 0 n) (fun s => V p q r s * G p q r s)%Qc))).

Lemma sum_ind n p x : p < n -> sum (seq 0 n) (fun a => if a =? p then x a else 0%Qc) = x p.
Proof.
  intros H. rewrite (sum_single _ p).
  - rewrite Nat.eqb_refl. reflexivity.
  - apply seq_NoDup.
  - apply in_seq. lia.
  - intros b _ D. destruct (Nat.eqb_spec b p); [congruence|reflexivity].
Qed.

Lemma add2_ok n D p q v : p < n -> q < n ->
  exists D', add2 n D p q v = Ok D' /\ forall T, c2 n T D' = (c2 n T D + T p q * v)%Qc.
Proof.
  intros Hp Hq. unfold add2. rewrite (proj2 (Nat.ltb_lt p n) Hp), (proj2 (Nat.ltb_lt q n) Hq).
  eexists. split; [reflexivity|]. intros T. unfold c2.
  rewrite <- (sum_ind n p (fun a => (T a q * v)%Qc)) by auto. rewrite <- sum_plus.
  apply sum_ext. intros a _. destruct (a =? p).
  - rewrite <- (sum_ind n q (fun b => (T a b * v)%Qc)) by auto. rewrite <- sum_plus.
    apply sum_ext. intros b _. destruct (b =? q); cbn [andb]; ring.
  - cbn [andb]. ring.
Qed.

Lemma add4_ok n D p q r s v : p < n -> q < n -> r < n -> s < n ->
  exists D', add4 n D p q r s v = Ok D' /\ forall V, c4 n V D' = (c4 n V D + V p q r s * v)%Qc.
Proof.
  intros Hp Hq Hr Hs. unfold add4. rewrite in4_ok by auto.
  eexists. split; [reflexivity|]. intros V. unfold c4.
  rewrite <- (sum_ind n p (fun a => (V a q r s * v)%Qc)) by auto. rewrite <- sum_plus.
  apply sum_ext. intros a _. destruct (a =? p); cbn [andb]; [|ring].
  rewrite <- (sum_ind n q (fun b => (V a b r s * v)%Qc)) by auto. rewrite <- sum_plus.
  apply sum_ext. intros b _. destruct (b =? q); cbn [andb]; [|ring].
  rewrite <- (sum_ind n r (fun c => (V a b c s * v)%Qc)) by auto. rewrite <- sum_plus.
  apply sum_ext. intros c _. destruct (c =? r); cbn [andb]; [|ring].
  rewrite <- (sum_ind n s (fun d => (V a b c d * v)%Qc)) by auto. rewrite <- sum_plus.
  apply sum_ext. intros d _. destruct (d =? s); ring.
Qed.

Lemma foldM_c2 {A} n (l : list A) f (g : mat2 -> A -> Qc) :
  (forall D x, In x l -> exists D', f D x = Ok D' /\ forall T, c2 n T D' = (c2 n T D + g T x)%Qc) ->
  forall D, exists D', foldM l f D = Ok D' /\ forall T, c2 n T D' = (c2 n T D + sum l (g T))%Qc.
Proof.
  induction l as [|x l IH]; intros H D; cbn [foldM sum].
  - exists D. split; auto. intros T. ring.
  - destruct (H D x) as (D1 & -> & E1); [left; auto|]. cbn [bind].
    destruct (IH (fun D y Hy => H D y (or_intror Hy)) D1) as (D2 & -> & E2).
    exists D2. split; auto. intros T. rewrite E2, E1. ring.
Qed.
Lemma foldM_c4 {A} n (l : list A) f (g : mat4 -> A -> Qc) :
  (forall D x, In x l -> exists D', f D x = Ok D' /\ forall V, c4 n V D' = (c4 n V D + g V x)%Qc) ->
  forall D, exists D', foldM l f D = Ok D' /\ forall V, c4 n V D' = (c4 n V D + sum l (g V))%Qc.
Proof.
  induction l as [|x l IH]; intros H D; cbn [foldM sum].
  - exists D. split; auto. intros T. ring.
  - destruct (H D x) as (D1 & -> & E1); [left; auto|]. cbn [bind].
    destruct (IH (fun D y Hy => H D y (or_intror Hy)) D1) as (D2 & -> & E2).
    exists D2. split; auto. intros T. rewrite E2, E1. ring.
Qed.

Ltac step4 n := match goal with
  | |- context [add4 n ?D ?p ?q ?r ?s ?v] =>
    let D' := fresh "D'" in let E := fresh "E" in
    destruct (add4_ok n D p q r s v) as (D' & -> & E); [assumption..|]; cbn [bind]
  end.

(** ** one pair *)
Lemma rdm4_ok n H bra ket ex val D o1 v1 o2 v2 sg :
  doubles_sign_indices H bra ket ex = Ok (o1, v1, o2, v2, sg) ->
  o1 < n -> v1 < n -> o2 < n -> v2 < n ->
  exists D', rdm_contributions_4 n H bra ket ex val D = Ok D' /\
    forall T V, eri_symmetric n V ->
      exists x, matrix_element_4 (mk_ints n T V) H bra ket ex = Ok x /\
        c4 n V D' = (c4 n V D + val * x)%Qc.
Proof.
  intros Hs H1 H2 H3 H4. unfold rdm_contributions_4. rewrite Hs. cbn [bind].
  step4 n. step4 n. step4 n. step4 n. eexists. split; [reflexivity|]. intros T V Sy.
  unfold matrix_element_4. rewrite Hs. cbn [bind]. rewrite G_at_ok by auto. cbn [bind].
  eexists. split; [reflexivity|]. rewrite E2, E1, E0, E. unfold G_pqrs. cbn [V_pqrs].
  rewrite (proj1 (Sy v2 o1 v1 o2 H4 H1 H2 H3)), (proj1 (Sy v2 o2 v1 o1 H4 H3 H2 H1)).
  set (a := V v1 o1 v2 o2). set (b := V v1 o2 v2 o1). set (k := (val * sgn sg)%Qc).
  transitivity (c4 n V D + (half * (k * a - k * b) + half * (k * a - k * b)))%Qc.
  - unfold k. ring.
  - rewrite half_half. unfold k. ring.
Qed.

Lemma rdm22_ok n H ba ka ea bb kb eb val D o1 v1 s1 o2 v2 s2 :
  single_excitation_sign_indices H ba ka ea = Ok (o1, v1, s1) ->
  single_excitation_sign_indices H bb kb eb = Ok (o2, v2, s2) ->
  o1 < n -> v1 < n -> o2 < n -> v2 < n ->
  exists D', rdm_contributions_22 n H ba ka ea bb kb eb val D = Ok D' /\
    forall T V, eri_symmetric n V ->
      exists x, matrix_element_22 (mk_ints n T V) H ba ka ea bb kb eb = Ok x /\
        c4 n V D' = (c4 n V D + val * x)%Qc.
Proof.
  intros Ha Hb H1 H2 H3 H4. unfold rdm_contributions_22. rewrite Ha. cbn [bind]. rewrite Hb. cbn [bind].
  step4 n. step4 n. eexists. split; [reflexivity|]. intros T V Sy.
  unfold matrix_element_22. rewrite Ha. cbn [bind]. rewrite Hb. cbn [bind].
  rewrite V_at_ok by auto. cbn [bind].
  eexists. split; [reflexivity|]. rewrite E0, E. cbn [V_pqrs].
  rewrite (proj1 (Sy v2 o2 v1 o1 H4 H3 H2 H1)).
  set (a := V v1 o1 v2 o2). set (k := (val * sgn s1 * sgn s2)%Qc).
  transitivity (c4 n V D + (half * (k * a) + half * (k * a)))%Qc.
  - unfold k. ring.
  - rewrite half_half. unfold k. ring.
Qed.

Lemma rdm2_ok n H bra ket ex oa ob val D1 D2 o v sg :
  single_excitation_sign_indices H bra ket ex = Ok (o, v, sg) ->
  o < n -> v < n -> (forall p, In p oa -> p < n) -> (forall p, In p ob -> p < n) ->
  exists D1' D2', rdm_contributions_2 n H bra ket ex oa ob val D1 (Some D2) = Ok (D1', Some D2') /\
    rdm_contributions_2 n H bra ket ex oa ob val D1 None = Ok (D1', None) /\
    forall T V, eri_symmetric n V ->
      exists x, matrix_element_2 (mk_ints n T V) H bra ket ex oa ob = Ok x /\
        (c2 n T D1' + c4 n V D2' = c2 n T D1 + c4 n V D2 + val * x)%Qc.
Proof.
  intros Hs Ho Hv La Lb. unfold rdm_contributions_2. rewrite Hs. cbn [bind].
  destruct (add2_ok n D1 v o (sgn sg * val)) as (D1' & -> & E1); auto. cbn [bind].
  set (w := (val * (sgn sg * half))%Qc).
  edestruct (foldM_c4 n oa (fun D p => do D <- add4 n D v o p p w; do D <- add4 n D p p v o w;
      do D <- add4 n D v p p o (- w)%Qc; add4 n D p o v p (- w)%Qc)
    (fun V p => (w * (V v o p p + V p p v o - V v p p o - V p o v p))%Qc)) as (Da & -> & Ea).
  { intros D p Hp. apply La in Hp. step4 n. step4 n. step4 n. step4 n. eexists. split; [reflexivity|].
    intros V. rewrite E3, E2, E0, E. ring. }
  cbn [bind].
  edestruct (foldM_c4 n ob (fun D p => do D <- add4 n D v o p p w; add4 n D p p v o w)
    (fun V p => (w * (V v o p p + V p p v o))%Qc)) as (Db & -> & Eb).
  { intros D p Hp. apply Lb in Hp. step4 n. step4 n. eexists. split; [reflexivity|].
    intros V. rewrite E0, E. ring. }
  cbn [bind]. exists D1', Db. split; [reflexivity|]. split; [reflexivity|]. intros T V Sy.
  unfold matrix_element_2. rewrite Hs. cbn [bind]. rewrite T_at_ok by auto. cbn [bind].
  rewrite (sumM_ok oa _ (fun p => (V p p v o - V p o v p)%Qc)).
  2:{ intros p Hp. apply La in Hp. unfold Gred_at. rewrite G_at_ok by auto. reflexivity. }
  cbn [bind]. rewrite (sumM_ok ob _ (fun p => V p p v o)).
  2:{ intros p Hp. apply Lb in Hp. unfold Vred_at. rewrite V_at_ok by auto. reflexivity. }
  cbn [bind]. eexists. split; [reflexivity|]. rewrite E1, Eb, Ea. cbn [T_pq].
  rewrite (sum_ext oa _ (fun p => (half * ((val * sgn sg) * (V p p v o - V p o v p)) +
                                   half * ((val * sgn sg) * (V p p v o - V p o v p)))%Qc)).
  2:{ intros p Hp. apply La in Hp.
      rewrite (proj1 (Sy v o p p Hv Ho Hp Hp)), (proj1 (Sy v p p o Hv Hp Hp Ho)). unfold w. ring. }
  rewrite (sum_ext ob _ (fun p => (half * ((val * sgn sg) * V p p v o) +
                                   half * ((val * sgn sg) * V p p v o))%Qc)).
  2:{ intros p Hp. apply Lb in Hp. rewrite (proj1 (Sy v o p p Hv Ho Hp Hp)). unfold w. ring. }
  rewrite (sum_ext oa _ _ (fun p _ => half_half _)), (sum_ext ob _ _ (fun p _ => half_half _)).
  rewrite !sum_scale. ring.
Qed.

Lemma rdmdiag_ok n oa ob val D1 D2 :
  (forall p, In p oa -> p < n) -> (forall p, In p ob -> p < n) ->
  exists D1' D2', rdm_contributions_diag n oa ob val D1 (Some D2) = Ok (D1', Some D2') /\
    rdm_contributions_diag n oa ob val D1 None = Ok (D1', None) /\
    forall T V, eri_symmetric n V ->
      exists x, matrix_element_diag (mk_ints n T V) oa ob = Ok x /\
        (c2 n T D1' + c4 n V D2' = c2 n T D1 + c4 n V D2 + val * x)%Qc.
Proof.
  intros La Lb. unfold rdm_contributions_diag.
  edestruct (foldM_c2 n oa (fun D p => add2 n D p p val) (fun T p => (T p p * val)%Qc)) as (Ea & -> & Qa).
  { intros D p Hp. apply add2_ok; auto. }
  cbn [bind].
  edestruct (foldM_c2 n ob (fun D p => add2 n D p p val) (fun T p => (T p p * val)%Qc)) as (Eb & -> & Qb).
  { intros D p Hp. apply add2_ok; auto. }
  cbn [bind]. set (w := (val * half)%Qc).
  assert (Sm : forall l, (forall p, In p l -> p < n) -> forall D,
    exists D', foldM (list_prod l l) (fun (D : mat4) (qp : nat * nat) => let '(q, p) := qp in
      do D <- add4 n D p p q q w; add4 n D p q p q (- w)%Qc) D = Ok D' /\
      forall V, c4 n V D' = (c4 n V D + sum (list_prod l l) (fun qp =>
        w * (V (snd qp) (snd qp) (fst qp) (fst qp) - V (snd qp) (fst qp) (snd qp) (fst qp))))%Qc).
  { intros l Hl. apply (foldM_c4 n (list_prod l l)). intros D [q p] Hqp. apply in_prod_iff in Hqp.
    destruct Hqp as [A B]. apply Hl in A, B. step4 n. step4 n. eexists. split; [reflexivity|].
    intros V. cbn [fst snd]. rewrite E0, E. ring. }
  destruct (Sm oa La D2) as (Fa & -> & Ra). cbn [bind].
  destruct (Sm ob Lb Fa) as (Fb & -> & Rb). cbn [bind].
  edestruct (foldM_c4 n (list_prod ob oa) (fun (D : mat4) (qp : nat * nat) => let '(q, p) := qp in
      do D <- add4 n D p p q q w; add4 n D q q p p w)
      (fun V qp => (w * (V (snd qp) (snd qp) (fst qp) (fst qp) + V (fst qp) (fst qp) (snd qp) (snd qp)))%Qc))
      as (Fc & -> & Rc).
  { intros D [q p] Hqp. apply in_prod_iff in Hqp. destruct Hqp as [A B]. apply Lb in A. apply La in B.
    step4 n. step4 n. eexists. split; [reflexivity|]. intros V. cbn [fst snd]. rewrite E0, E. ring. }
  cbn [bind]. exists Eb, Fc. split; [reflexivity|]. split; [reflexivity|]. intros T V Sy.
  set (h := mk_ints n T V). unfold matrix_element_diag.
  rewrite (sumM_ok oa _ (fun p => T p p)) by (intros p Hp; apply La in Hp; rewrite T_at_ok by auto; reflexivity).
  cbn [bind].
  rewrite (sumM_ok ob _ (fun p => T p p)) by (intros p Hp; apply Lb in Hp; rewrite T_at_ok by auto; reflexivity).
  cbn [bind]. rewrite (sumM_ok (list_prod oa oa) _ (fun qp => G2 h (snd qp) (fst qp))).
  2:{ intros [q p] Hqp. apply in_prod_iff in Hqp. destruct Hqp as [A B]. apply La in A, B. apply G2_at_ok; auto. }
  cbn [bind]. rewrite (sumM_ok (list_prod ob ob) _ (fun qp => G2 h (snd qp) (fst qp))).
  2:{ intros [q p] Hqp. apply in_prod_iff in Hqp. destruct Hqp as [A B]. apply Lb in A, B. apply G2_at_ok; auto. }
  cbn [bind]. rewrite (sumM_ok (list_prod ob oa) _ (fun qp => V (snd qp) (snd qp) (fst qp) (fst qp))).
  2:{ intros [q p] Hqp. apply in_prod_iff in Hqp. destruct Hqp as [A B]. apply Lb in A. apply La in B.
      apply (V2_at_ok h); auto. }
  eexists. split; [reflexivity|]. rewrite Qb, Qa, Rc, Rb, Ra.
  assert (K : forall l, (forall p, In p l -> p < n) -> sum (list_prod l l) (fun qp : nat * nat =>
        (w * (V (snd qp) (snd qp) (fst qp) (fst qp) - V (snd qp) (fst qp) (snd qp) (fst qp)))%Qc) =
      (val * sum (list_prod l l) (fun qp => G2 h (snd qp) (fst qp)))%Qc).
  { intros l Hl. rewrite <- sum_scale. apply sum_ext. intros [q p] Hqp. apply in_prod_iff in Hqp.
    destruct Hqp as [A B]. apply Hl in A, B. cbn [fst snd]. unfold G2, G_pqrs, h, w. cbn [V_pqrs].
    rewrite (proj2 (Sy p q p q B A B A)). ring. }
  rewrite (K oa La), (K ob Lb). clear K.
  rewrite (sum_ext (list_prod ob oa) _ (fun qp => (half * (val * V (snd qp) (snd qp) (fst qp) (fst qp)) +
                                   half * (val * V (snd qp) (snd qp) (fst qp) (fst qp)))%Qc)).
  2:{ intros [q p] Hqp. apply in_prod_iff in Hqp. destruct Hqp as [A B]. apply Lb in A. apply La in B.
      cbn [fst snd]. rewrite (proj1 (Sy q q p p A A B B)). unfold w. ring. }
  rewrite (sum_ext (list_prod ob oa) _ _ (fun p _ => half_half _)). rewrite sum_scale, !sum_scale_r. ring.
Qed.

(** ** classification of a pair *)
Definition sgl (n H : nat) (b k : N) : Prop := exists o v s,
  single_excitation_sign_indices H b k (N.lxor b k) = Ok (o, v, s) /\ o < n /\ v < n.
Definition dbl (n H : nat) (b k : N) : Prop := exists o1 v1 o2 v2 s,
  doubles_sign_indices H b k (N.lxor b k) = Ok (o1, v1, o2, v2, s) /\ o1 < n /\ v1 < n /\ o2 < n /\ v2 < n.

Lemma classify n H b k m : n <= H -> wf n b -> wf n k -> size_is b m -> size_is k m ->
  (bs_count (N.lxor b k) = 0 /\ b = k) \/ (bs_count (N.lxor b k) = 2 /\ sgl n H b k) \/
  (bs_count (N.lxor b k) = 4 /\ dbl n H b k) \/ 6 <= bs_count (N.lxor b k).
Proof.
  intros Hn Wb Wk Sb Sk. destruct (moves_exists _ _ _ Sk Sb) as [j M].
  rewrite (count_xor_moves j) by auto.
  assert (LT : forall x p, wf n x -> tb x p = true -> p < n).
  { intros x p Wx Hp. destruct (Nat.ltb_spec p n); auto. rewrite Wx in Hp by auto. discriminate. }
  destruct j as [|[|[|j]]]; [left|right; left|right; right; left|right; right; right; lia].
  - apply moves_0 in M. auto.
  - split; auto. destruct (single_phase H b k) as (o & v & s & E & Io & Iv & _); auto.
    + eapply wf_le; eauto. + eapply wf_le; eauto.
    + exists o, v, s. split; auto. split.
      * apply (LT k); auto. apply (Io o). auto.
      * apply (LT b); auto. apply (Iv v). auto.
  - split; auto. destruct (double_phase H b k) as (o & v & o2 & v2 & s & E & _ & _ & _ & Io & Iv & _); auto.
    + eapply wf_le; eauto. + eapply wf_le; eauto.
    + exists o, v, o2, v2, s. split; auto. split; [|split; [|split]].
      * apply (LT k); auto. apply (Io o). auto.
      * apply (LT b); auto. apply (Iv v). auto.
      * apply (LT k); auto. apply (Io o2). auto.
      * apply (LT b); auto. apply (Iv v2). auto.
Qed.

Lemma c4_zero n D : c4 n (fun _ _ _ _ => 0%Qc) D = 0%Qc.
Proof. unfold c4. apply sum_zero; intros; apply sum_zero; intros; apply sum_zero; intros; apply sum_zero; intros. ring. Qed.

Section RDM.
  Variables (W : nat) (HW : spin_width W) (n : nat).
  Hypothesis Hn : n <= W / 2.
  Variables (na nb : nat).
  Definition good (x : N) : Prop :=
    in_space W n x /\ size_is (alpha W x) na /\ size_is (beta W x) nb.

  Lemma good_wf x : good x -> wf W x.
  Proof. intros [H _]. eapply in_space_wf; eauto. Qed.

  Lemma rdm_contributions_ok bra ket val D1 D2 : good bra -> good ket ->
    exists D1' D2',
    let call D2 := rdm_contributions n (W / 2) (alpha W bra) (alpha W ket) (N.lxor (alpha W bra) (alpha W ket))
      (beta W bra) (beta W ket) (N.lxor (beta W bra) (beta W ket))
      (positions n (alpha W bra)) (positions n (beta W bra)) val D1 D2 in
    call (Some D2) = Ok (D1', Some D2') /\
    (bs_count (N.lxor bra ket) <> 4 -> call None = Ok (D1', None)) /\
    forall T V, eri_symmetric n V ->
      (c2 n T D1' + c4 n V D2' = c2 n T D1 + c4 n V D2 + val * ham W n T V bra ket)%Qc.
  Proof.
    intros (Sb & Ab & Bb) (Sk & Ak & Bk).
    assert (Wb : wf W bra) by (eapply in_space_wf; eauto).
    assert (Wk : wf W ket) by (eapply in_space_wf; eauto).
    assert (Wx : wf W (N.lxor bra ket)).
    { intros i Hi. rewrite tb_xor, Wb, Wk by auto. reflexivity. }
    assert (CT : bs_count (N.lxor bra ket) =
      bs_count (N.lxor (alpha W bra) (alpha W ket)) + bs_count (N.lxor (beta W bra) (beta W ket))).
    { rewrite (count_split W) by auto. f_equal; f_equal; apply tb_ext; intros i; unfold alpha, beta;
      rewrite tb_xor, ?tb_mod, ?tb_div, tb_xor; auto. destruct (i <? W/2); reflexivity. }
    assert (ME : forall T V, eri_symmetric n V -> matrix_element_spin (mk_ints n T V) (W / 2)
      (alpha W bra) (alpha W ket) (N.lxor (alpha W bra) (alpha W ket))
      (beta W bra) (beta W ket) (N.lxor (beta W bra) (beta W ket))
      (positions n (alpha W bra)) (positions n (beta W bra)) = Ok (ham W n T V bra ket)).
    { intros T V Sy. apply (matrix_element_spin_ok W (mk_ints n T V) Hn) with (na := na) (nb := nb); auto.
      intros p q r s P Q R S. apply Sy; auto. }
    rewrite CT. clear CT. unfold rdm_contributions. unfold matrix_element_spin in ME.
    set (ea := N.lxor (alpha W bra) (alpha W ket)) in *. set (eb := N.lxor (beta W bra) (beta W ket)) in *.
    assert (La : forall p, In p (positions n (alpha W bra)) -> p < n) by (intros p Hp; apply positions_In in Hp; lia).
    assert (Lb : forall p, In p (positions n (beta W bra)) -> p < n) by (intros p Hp; apply positions_In in Hp; lia).
    set (oa := positions n (alpha W bra)) in *. set (ob := positions n (beta W bra)) in *.
    destruct Sb as [Wab Wbb], Sk as [Wak Wbk].
    assert (FAR : 4 < bs_count ea + bs_count eb -> exists D1' D2' : _,
      (if 4 <? bs_count ea + bs_count eb then Ok (D1, Some D2) else Err UB) = Ok (D1', Some D2') /\
      D1' = D1 /\ D2' = D2 /\ (4 <? bs_count ea + bs_count eb) = true /\
      forall T V, eri_symmetric n V -> ham W n T V bra ket = 0%Qc).
    { intros F. apply Nat.ltb_lt in F. rewrite F. exists D1, D2. split; [reflexivity|].
      split; [reflexivity|]. split; [reflexivity|]. split; [reflexivity|].
      intros T V Sy. specialize (ME T V Sy). rewrite F in ME. congruence. }
    assert (NEAR : 4 < bs_count ea + bs_count eb \/
      (exists i j, bs_count ea = i /\ bs_count eb = j /\
        ((i = 0 /\ j = 0) \/ (i = 0 /\ j = 2 /\ sgl n (W/2) (beta W bra) (beta W ket)) \/
         (i = 0 /\ j = 4 /\ dbl n (W/2) (beta W bra) (beta W ket)) \/
         (i = 2 /\ j = 0 /\ sgl n (W/2) (alpha W bra) (alpha W ket)) \/
         (i = 2 /\ j = 2 /\ sgl n (W/2) (alpha W bra) (alpha W ket) /\ sgl n (W/2) (beta W bra) (beta W ket)) \/
         (i = 4 /\ j = 0 /\ dbl n (W/2) (alpha W bra) (alpha W ket))))).
    { destruct (classify n (W/2) _ _ _ Hn Wab Wak Ab Ak) as [[Ca Pa]|[[Ca Pa]|[[Ca Pa]|Ca]]];
      destruct (classify n (W/2) _ _ _ Hn Wbb Wbk Bb Bk) as [[Cb Pb]|[[Cb Pb]|[[Cb Pb]|Cb]]];
      fold ea in Ca; fold eb in Cb; try (left; lia); right;
      exists (bs_count ea), (bs_count eb); (split; [reflexivity|]); (split; [reflexivity|]); tauto. }
    destruct NEAR as [F|(ci & cj & Ca & Cb & NEAR)].
    { destruct (FAR F) as (_ & _ & _ & _ & _ & X & HZ). rewrite X. exists D1, D2.
      split; [reflexivity|]. split; [reflexivity|]. intros T V Sy. rewrite (HZ T V Sy). ring. }
    clear FAR. rewrite Ca, Cb in *. clear Ca Cb.
    destruct NEAR as [[-> ->]|[(-> & -> & Pb)|[(-> & -> & Pb)|[(-> & -> & Pa)|[(-> & -> & Pa & Pb)|(-> & -> & Pa)]]]]];
    cbn [Nat.add Nat.ltb Nat.leb Nat.eqb andb] in *.
    - destruct (rdmdiag_ok n oa ob val D1 D2 La Lb) as (D1' & D2' & E1 & E2 & E3).
      exists D1', D2'. split; [exact E1|]. split; [auto|]. intros T V Sy.
      destruct (E3 T V Sy) as (x & Ex & Eq). rewrite (ME T V Sy) in Ex. injection Ex as ->. exact Eq.
    - destruct Pb as (o & v & s & P & Ho & Hv). fold eb in P.
      destruct (rdm2_ok n (W/2) _ _ _ ob oa val D1 D2 o v s P Ho Hv Lb La) as (D1' & D2' & E1 & E2 & E3).
      exists D1', D2'. split; [exact E1|]. split; [auto|]. intros T V Sy.
      destruct (E3 T V Sy) as (x & Ex & Eq). rewrite (ME T V Sy) in Ex. injection Ex as ->. exact Eq.
    - destruct Pb as (o & v & o2 & v2 & s & P & Ho & Hv & Ho2 & Hv2).
      destruct (rdm4_ok n (W/2) _ _ _ val D2 o v o2 v2 s P Ho Hv Ho2 Hv2) as (D2' & E1 & E3).
      unfold eb. rewrite E1. cbn [bind].
      exists D1, D2'. split; [reflexivity|]. split; [intros X; congruence|]. intros T V Sy.
      destruct (E3 T V Sy) as (x & Ex & Eq). fold eb in Ex. rewrite (ME T V Sy) in Ex. injection Ex as <-.
      rewrite Eq. ring.
    - destruct Pa as (o & v & s & P & Ho & Hv). fold ea in P.
      destruct (rdm2_ok n (W/2) _ _ _ oa ob val D1 D2 o v s P Ho Hv La Lb) as (D1' & D2' & E1 & E2 & E3).
      exists D1', D2'. split; [exact E1|]. split; [auto|]. intros T V Sy.
      destruct (E3 T V Sy) as (x & Ex & Eq). rewrite (ME T V Sy) in Ex. injection Ex as ->. exact Eq.
    - destruct Pa as (o & v & s & P & Ho & Hv). destruct Pb as (o2 & v2 & s2 & P2 & Ho2 & Hv2).
      destruct (rdm22_ok n (W/2) _ _ _ _ _ _ val D2 o v s o2 v2 s2 P P2 Ho Hv Ho2 Hv2) as (D2' & E1 & E3).
      unfold ea, eb. rewrite E1. cbn [bind].
      exists D1, D2'. split; [reflexivity|]. split; [intros X; congruence|]. intros T V Sy.
      destruct (E3 T V Sy) as (x & Ex & Eq). fold ea eb in Ex. rewrite (ME T V Sy) in Ex. injection Ex as <-.
      rewrite Eq. ring.
    - destruct Pa as (o & v & o2 & v2 & s & P & Ho & Hv & Ho2 & Hv2).
      destruct (rdm4_ok n (W/2) _ _ _ val D2 o v o2 v2 s P Ho Hv Ho2 Hv2) as (D2' & E1 & E3).
      unfold ea. rewrite E1. cbn [bind].
      exists D1, D2'. split; [reflexivity|]. split; [intros X; congruence|]. intros T V Sy.
      destruct (E3 T V Sy) as (x & Ex & Eq). fold ea in Ex. rewrite (ME T V Sy) in Ex. injection Ex as <-.
      rewrite Eq. ring.
  Qed.
End RDM.

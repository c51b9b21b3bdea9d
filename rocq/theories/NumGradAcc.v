(** Numerical orbital gradient and Hessian: accuracy of the finite differences. *)
From Coq Require Import QArith Qcanon Qcabs Lia Lqa.
From Verif Require Import Base Sums Dense DenseSpec NumGrad NumGradSpec.
Local Open Scope Qc_scope.

Lemma mul_nonneg x y : 0 <= x -> 0 <= y -> 0 <= x * y.
Proof. unfold Qcle, Qcmult. cbn [this Q2Qc]. rewrite !Qred_correct. nra. Qed.
Lemma five_point_error h f c0 c1 c2 c3 c4 M : 0 < h -> inject 2 * h <= 1 -> quartic f c0 c1 c2 c3 c4 M ->
  Qcabs (five_point h f - c1) <= Q2Qc (20 # 3) * M * (h * h * h * h).
Proof.
  intros Hh Hh2 HQ. assert (Nh : h <> 0) by (intros ->; discriminate Hh).
  assert (P2 : 0 <= inject 2 * h). { unfold Qcle, Qclt in *. unfold inject, Qcmult in *. cbn [this Q2Qc] in *. rewrite !Qred_correct in *. change (0 < this h)%Q in Hh. change (0 <= (2 # 1) * this h)%Q. lra. }
  assert (P1 : 0 <= h) by (apply Qclt_le_weak; exact Hh).
  assert (H1 : h <= 1). { unfold Qcle, Qclt in *. unfold inject, Qcmult in *. cbn [this Q2Qc] in *. rewrite !Qred_correct in *. change (0 < this h)%Q in Hh. change ((2 # 1) * this h <= 1)%Q in Hh2. change (this h <= 1)%Q. lra. }
  assert (A2 : Qcabs (inject 2 * h) <= 1) by (rewrite Qcabs_pos; assumption).
  assert (B2 : Qcabs (- (inject 2 * h)) <= 1) by (rewrite Qcabs_opp; exact A2).
  assert (A1 : Qcabs h <= 1) by (rewrite Qcabs_pos; assumption).
  assert (B1 : Qcabs (- h) <= 1) by (rewrite Qcabs_opp; exact A1).
  pose proof (HQ _ A2) as QA. pose proof (HQ _ B2) as QB. pose proof (HQ _ A1) as QC. pose proof (HQ _ B1) as QD.
  clear HQ. unfold five_point.
  set (p := fun t => c0 + c1 * t + c2 * (t * t) + c3 * (t * t * t) + c4 * (t * t * t * t)).
  fold (p (inject 2 * h)) in QA. fold (p (- (inject 2 * h))) in QB. fold (p h) in QC. fold (p (- h)) in QD.
  assert (H5 : 0 <= h * h * h * h * h). { repeat (exact P1 || apply mul_nonneg). }
  assert (R2 : Qcabs (inject 2 * h * (inject 2 * h) * (inject 2 * h) * (inject 2 * h) * (inject 2 * h)) = inject 32 * (h * h * h * h * h)).
  { rewrite Qcabs_pos by (repeat (exact P2 || apply mul_nonneg)). replace (inject 32) with (inject 2 * inject 2 * inject 2 * inject 2 * inject 2) by (apply Qc_is_canon; reflexivity). ring. }
  assert (R2' : Qcabs (- (inject 2 * h) * - (inject 2 * h) * - (inject 2 * h) * - (inject 2 * h) * - (inject 2 * h)) = inject 32 * (h * h * h * h * h)).
  { rewrite <- R2, <- Qcabs_opp. f_equal. ring. }
  assert (R1 : Qcabs (h * h * h * h * h) = h * h * h * h * h) by (apply Qcabs_pos; exact H5).
  assert (R1' : Qcabs (- h * - h * - h * - h * - h) = h * h * h * h * h) by (rewrite <- R1, <- Qcabs_opp; f_equal; ring).
  rewrite R2 in QA. rewrite R2' in QB. rewrite R1 in QC. rewrite R1' in QD.
  set (e1 := f (inject 2 * h) - p (inject 2 * h)) in *. set (e2 := f (- (inject 2 * h)) - p (- (inject 2 * h))) in *.
  set (e3 := f h - p h) in *. set (e4 := f (- h) - p (- h)) in *.
  assert (EQ : ((f (- (inject 2 * h)) - f (inject 2 * h) + inject 8 * (f h - f (- h))) / (inject 12 * h) - c1) * (inject 12 * h) = e2 - e1 + inject 8 * (e3 - e4)).
  { unfold e1, e2, e3, e4, p. replace (inject 12) with (inject 2 * (1 + inject 2 + 1 + 1 + 1)) by (apply Qc_is_canon; reflexivity). replace (inject 8) with (inject 2 * inject 2 * inject 2) by (apply Qc_is_canon; reflexivity).
    replace (inject 2) with (1 + 1) by (apply Qc_is_canon; reflexivity).
    field. split; [exact Nh|]. discriminate. }
  assert (P12 : 0 < inject 12 * h). { unfold Qclt in *. unfold inject, Qcmult in *. cbn [this Q2Qc] in *. rewrite !Qred_correct in *. change (0 < this h)%Q in Hh. change (0 < (12 # 1) * this h)%Q. lra. }
  apply (Qcmult_lt_0_le_reg_r _ _ _ P12).
  assert (HM : forall x, Qcabs x * (inject 12 * h) = Qcabs (x * (inject 12 * h))) by (intros x; rewrite Qcabs_Qcmult, (Qcabs_pos (inject 12 * h)) by (apply Qclt_le_weak; exact P12); reflexivity).
  rewrite HM, EQ.
  replace (Q2Qc (20 # 3) * M * (h * h * h * h) * (inject 12 * h)) with (inject 80 * (M * (h * h * h * h * h))).
  2: { replace (inject 80) with (Q2Qc (20 # 3) * inject 12) by (apply Qc_is_canon; reflexivity). ring. }
  replace (M * (inject 32 * (h * h * h * h * h))) with (inject 32 * (M * (h * h * h * h * h))) in QA, QB by ring.
  set (m := M * (h * h * h * h * h)) in *. clearbody m e1 e2 e3 e4. clear - QA QB QC QD.
  apply Qcabs_Qcle_condition in QA, QB, QC, QD. apply Qcabs_Qcle_condition.
  unfold Qcle, inject, Qcminus, Qcplus, Qcmult, Qcopp in *. cbn [this Q2Qc] in *. rewrite !Qred_correct in *.
  change (inject_Z (Z.of_nat 32)) with (32 # 1)%Q in *. change (inject_Z (Z.of_nat 8)) with (8 # 1)%Q in *. change (inject_Z (Z.of_nat 80)) with (80 # 1)%Q in *. lra.
Qed.

Definition stencil2 (h1 h2 : Qc) (f : Qc -> Qc -> Qc) : Qc :=
  let g x := f x (- h2) - f x h2 + inject 8 * (f x h1 - f x (- h1)) in
  g (- h2) - g h2 + inject 8 * (g h1 - g (- h1)).
Lemma mixed_stencil h f : h <> 0 -> mixed_five_point h f * (inject 144 * (h * h)) = stencil2 h (inject 2 * h) f.
Proof.
  intros Nh. unfold mixed_five_point, five_point, stencil2. cbv zeta.
  replace (inject 144) with (inject 12 * inject 12) by (apply Qc_is_canon; reflexivity).
  generalize (f (- (inject 2 * h))) (f (inject 2 * h)) (f h) (f (- h)). intros f1 f2 f3 f4.
  assert (N12 : inject 12 <> 0) by discriminate. set (c12 := inject 12) in *. clearbody c12. set (c8 := inject 8). clearbody c8.
  generalize (f1 (- (inject 2 * h))) (f1 (inject 2 * h)) (f1 h) (f1 (- h)) (f2 (- (inject 2 * h))) (f2 (inject 2 * h)) (f2 h) (f2 (- h))
    (f3 (- (inject 2 * h))) (f3 (inject 2 * h)) (f3 h) (f3 (- h)) (f4 (- (inject 2 * h))) (f4 (inject 2 * h)) (f4 h) (f4 (- h)). intros. field. auto.
Qed.
Definition poly5 (c : nat -> nat -> Qc) (x y : Qc) : Qc := Sigma 6 (fun m => Sigma (6 - m) (fun n => c m n * qpow x m * qpow y n)).
Lemma stencil_minus h1 h2 f g : stencil2 h1 h2 (fun x y => f x y - g x y) = stencil2 h1 h2 f - stencil2 h1 h2 g.
Proof. unfold stencil2. cbv zeta. ring. Qed.
Lemma stencil_poly h c : stencil2 h (inject 2 * h) (poly5 c) = c 1%nat 1%nat * (inject 144 * (h * h)).
Proof.
  unfold stencil2, poly5, Sigma. cbn [seq Nat.sub sum qpow].
  replace (inject 8) with ((1 + 1) * ((1 + 1) * (1 + 1))) by (apply Qc_is_canon; reflexivity).
  replace (inject 144) with ((1 + 1 + 1) * (1 + 1 + 1) * ((1 + 1) * (1 + 1)) * ((1 + 1) * (1 + 1))) by (apply Qc_is_canon; reflexivity).
  replace (inject 2) with (1 + 1) by (apply Qc_is_canon; reflexivity).
  ring.
Qed.
Lemma mixed_error h f c M : 0 < h -> inject 2 * h <= 1 -> quintic2 f c M ->
  Qcabs (mixed_five_point h f - c 1%nat 1%nat) <= inject 32 * M * (h * h * h * h).
Proof.
  intros Hh Hh2 HQ. assert (Nh : h <> 0) by (intros ->; discriminate Hh).
  assert (P2 : 0 <= inject 2 * h). { unfold Qcle, Qclt in *. unfold inject, Qcmult in *. cbn [this Q2Qc] in *. rewrite !Qred_correct in *. change (0 < this h)%Q in Hh. change (0 <= (2 # 1) * this h)%Q. lra. }
  assert (P1 : 0 <= h) by (apply Qclt_le_weak; exact Hh).
  assert (P3 : h <= inject 2 * h). { unfold Qcle, Qclt in *. unfold inject, Qcmult in *. cbn [this Q2Qc] in *. rewrite !Qred_correct in *. change (0 < this h)%Q in Hh. change (this h <= (2 # 1) * this h)%Q. lra. }
  assert (H1 : h <= 1) by (eapply Qcle_trans; [exact P3|exact Hh2]).
  assert (P12 : 0 < inject 144 * (h * h)). { unfold Qclt in *. unfold inject, Qcmult in *. cbn [this Q2Qc] in *. rewrite !Qred_correct in *. change (0 < this h)%Q in Hh. change (0 < (144 # 1) * (this h * this h))%Q. nra. }
  apply (Qcmult_lt_0_le_reg_r _ _ _ P12).
  assert (HM : forall x, Qcabs x * (inject 144 * (h * h)) = Qcabs (x * (inject 144 * (h * h)))) by (intros x; rewrite Qcabs_Qcmult, (Qcabs_pos (inject 144 * (h * h))) by (apply Qclt_le_weak; exact P12); reflexivity).
  rewrite HM. clear HM.
  replace ((mixed_five_point h f - c 1%nat 1%nat) * (inject 144 * (h * h))) with (stencil2 h (inject 2 * h) (fun x y => f x y - poly5 c x y)).
  2: { rewrite stencil_minus, stencil_poly, <- mixed_stencil by exact Nh. ring. }
  assert (Q2 : forall x y, Qcabs x <= inject 2 * h -> Qcabs y <= inject 2 * h -> Qcabs (f x y - poly5 c x y) <= inject 64 * (M * (h * h * h * h * h * h))).
  { intros x y Hx Hy. eapply Qcle_trans; [exact (HQ x y _ Hx Hy Hh2)|]. replace (inject 64) with (inject 2 * inject 2 * inject 2 * inject 2 * inject 2 * inject 2) by (apply Qc_is_canon; reflexivity).
    cbn [qpow]. match goal with |- ?a <= ?b => replace a with b by ring end. apply Qcle_refl. }
  assert (Q1 : forall x y, Qcabs x <= h -> Qcabs y <= h -> Qcabs (f x y - poly5 c x y) <= M * (h * h * h * h * h * h)).
  { intros x y Hx Hy. eapply Qcle_trans; [exact (HQ x y _ Hx Hy H1)|]. cbn [qpow]. match goal with |- ?a <= ?b => replace a with b by ring end. apply Qcle_refl. }
  replace (inject 32 * M * (h * h * h * h) * (inject 144 * (h * h))) with (inject 4608 * (M * (h * h * h * h * h * h))).
  2: { replace (inject 4608) with (inject 32 * inject 144) by (apply Qc_is_canon; vm_compute; reflexivity). ring. }
  set (e := fun x y => f x y - poly5 c x y). fold e. change (forall x y, Qcabs x <= inject 2 * h -> Qcabs y <= inject 2 * h -> Qcabs (e x y) <= inject 64 * (M * (h * h * h * h * h * h))) in Q2.
  change (forall x y, Qcabs x <= h -> Qcabs y <= h -> Qcabs (e x y) <= M * (h * h * h * h * h * h)) in Q1. clearbody e.
  set (m := M * (h * h * h * h * h * h)) in *. clearbody m.
  assert (A2 : Qcabs (inject 2 * h) <= inject 2 * h) by (rewrite Qcabs_pos by assumption; apply Qcle_refl).
  assert (B2 : Qcabs (- (inject 2 * h)) <= inject 2 * h) by (rewrite Qcabs_opp; exact A2).
  assert (A1 : Qcabs h <= h) by (rewrite Qcabs_pos by assumption; apply Qcle_refl).
  assert (B1 : Qcabs (- h) <= h) by (rewrite Qcabs_opp; exact A1).
  assert (A3 : Qcabs h <= inject 2 * h) by (eapply Qcle_trans; [exact A1|exact P3]).
  assert (B3 : Qcabs (- h) <= inject 2 * h) by (rewrite Qcabs_opp; exact A3).
  unfold stencil2. cbv zeta.
  pose proof (Q2 _ _ B2 B2) as X1. pose proof (Q2 _ _ B2 A2) as X2. pose proof (Q2 _ _ B2 A3) as X3. pose proof (Q2 _ _ B2 B3) as X4.
  pose proof (Q2 _ _ A2 B2) as X5. pose proof (Q2 _ _ A2 A2) as X6. pose proof (Q2 _ _ A2 A3) as X7. pose proof (Q2 _ _ A2 B3) as X8.
  pose proof (Q2 _ _ A3 B2) as X9. pose proof (Q2 _ _ A3 A2) as X10. pose proof (Q1 _ _ A1 A1) as X11. pose proof (Q1 _ _ A1 B1) as X12.
  pose proof (Q2 _ _ B3 B2) as X13. pose proof (Q2 _ _ B3 A2) as X14. pose proof (Q1 _ _ B1 A1) as X15. pose proof (Q1 _ _ B1 B1) as X16.
  clear - X1 X2 X3 X4 X5 X6 X7 X8 X9 X10 X11 X12 X13 X14 X15 X16.
  set (h2 := inject 2 * h) in *. set (g2 := - h2) in *. set (g1 := - h) in *. clearbody g2 g1 h2.
  repeat match goal with H : context [e ?a ?b] |- _ => let n := fresh "z" in set (n := e a b) in *; clearbody n end. clear e.
  apply Qcabs_Qcle_condition.
  repeat match goal with H : Qcabs _ <= _ |- _ => apply Qcabs_Qcle_condition in H; destruct H end.
  unfold Qcle, inject, Qcminus, Qcplus, Qcmult, Qcopp in *. cbn [this Q2Qc] in *. rewrite !Qred_correct in *.
  change (inject_Z (Z.of_nat 64)) with (64 # 1)%Q in *. change (inject_Z (Z.of_nat 8)) with (8 # 1)%Q in *. change (inject_Z (Z.of_nat 4608)) with (4608 # 1)%Q in *.
  split; lra.
Qed.
Lemma quartic_expands f c0 c1 c2 c3 c4 M : quartic f c0 c1 c2 c3 c4 M -> expands f c0 c1 c2.
Proof.
  intros HQ. exists (Qcabs c3 + Qcabs c4 + Qcabs M). intros t Ht. specialize (HQ t Ht).
  replace (f t - (c0 + t * c1 + t * t * c2)) with ((f t - (c0 + c1 * t + c2 * (t * t) + c3 * (t * t * t) + c4 * (t * t * t * t))) + (c3 * (t * t * t) + c4 * (t * t * t * t))) by ring.
  eapply Qcle_trans; [apply Qcabs_triangle|]. pose proof (Qcabs_triangle (c3 * (t * t * t)) (c4 * (t * t * t * t))) as K.
  rewrite !Qcabs_Qcmult in *. pose proof (Qcabs_nonneg t) as P. pose proof (Qcle_Qcabs M) as PM. pose proof (Qcabs_nonneg c4) as P4. pose proof (Qcabs_nonneg M) as P0.
  set (s := Qcabs t) in *. set (a3 := Qcabs c3) in *. set (a4 := Qcabs c4) in *. set (mm := Qcabs M) in *.
  clear - HQ K P PM P4 P0 Ht. set (l := Qcabs (f t - _)) in *. set (r := Qcabs (_ + _)) in *. clearbody s a3 a4 mm l r.
  unfold Qcle, Qcplus, Qcmult in *. cbn [this Q2Qc] in *. rewrite !Qred_correct in *.
  change (0 <= this s)%Q in P. change (this s <= 1)%Q in Ht. change (0 <= this a4)%Q in P4. change (0 <= this mm)%Q in P0.
  set (u := (this s * this s * this s)%Q) in *. assert (U : (0 <= u)%Q) by (unfold u; nra).
  assert (U4 : (u * this s <= u)%Q) by nra. assert (U5 : (u * this s * this s <= u)%Q) by (assert (0 <= u * this s)%Q by nra; nra).
  assert (V5 : (0 <= u * this s * this s)%Q) by (assert (0 <= u * this s)%Q by nra; nra).
  assert (V4 : (this a4 * (u * this s) <= this a4 * u)%Q) by nra.
  assert (W5 : (this M * (u * this s * this s) <= this mm * u)%Q) by nra. lra.
Qed.

(** Concrete cases for C68. *)
From Coq Require Import QArith Qcanon Lqa.
From Verif Require Import Base SD Sums Ham Asci AsciSort Mem MemProofs DenseSpec DenseProofs DiisSpec DiisProofs DavSpec McscfSpec RotProofs ExpandProofs DiisProofs2 Bfgs BfgsSpec BfgsProofs BfgsProofs2 BfgsProofs3 BfgsProofs4 BfgsGlue PropsHamGlue.
Local Open Scope nat_scope.

(** x0^2 + 2 x1^2 *)
Definition bowl (x : list Qc) : res Qc := Ok (nth 0 x 0 * nth 0 x 0 + Q2Qc (2 # 1) * (nth 1 x 0 * nth 1 x 0))%Qc.
Definition bowl_grad (x : list Qc) : res (list Qc) := Ok [(Q2Qc (2 # 1) * nth 0 x 0)%Qc; (Q2Qc (4 # 1) * nth 1 x 0)%Qc].
Definition flat (eps : Qc) (x g : list Qc) : bool := qlt (v_dot g g) eps.
Definition bowl_start : list Qc := [1%Qc; 1%Qc].
Lemma bowl_computable : computable 2 bowl bowl_grad.
Proof. intros x _. split; [eexists; reflexivity|]. eexists. split; reflexivity. Qed.
Lemma bowl_monotone : strictly_monotone 2 bowl_grad.
Proof.
  intros x x' g g' s y Lx Lx' NE G G' ((_ & S1) & (_ & Y1)). unfold bowl_grad in G, G'. injection G as <-. injection G' as <-. cbn [fst snd length] in *. rewrite Lx' in S1.
  pose proof (S1 0 ltac:(lia)) as S10. pose proof (S1 1 ltac:(lia)) as S11. pose proof (Y1 0 ltac:(lia)) as Y10. pose proof (Y1 1 ltac:(lia)) as Y11. cbn [nth] in Y10, Y11.
  unfold dot, Sigma. cbn [seq sum fold_right map]. unfold sum. cbn [seq map fold_right]. rewrite S10, S11, Y10, Y11.
  destruct x as [|a [|b [|]]]; try discriminate Lx. destruct x' as [|a' [|b' [|]]]; try discriminate Lx'. cbn [nth].
  assert (D : a <> a' \/ b <> b'). { destruct (Qc_eq_dec a a') as [->|]; [|left; assumption]. destruct (Qc_eq_dec b b') as [->|]; [contradiction|right; assumption]. }
  assert (P : (0 < (1 + 1) * ((a' - a) * (a' - a)) + (1 + 1) * (1 + 1) * ((b' - b) * (b' - b)))%Qc).
  { destruct D as [D|D].
    - assert (Z : (a' - a)%Qc <> 0%Qc) by (intros e; apply D; replace a' with (a' - a + a)%Qc by ring; rewrite e; ring). apply sq_pos in Z. pose proof (sq_nonneg (b' - b)) as W. revert Z W. generalize ((a' - a) * (a' - a))%Qc ((b' - b) * (b' - b))%Qc. intros u v. unfold Qclt, Qcle. cbn [this Qcplus Qcmult Q2Qc]. rewrite ?Qred_correct. intros. change (this 1%Qc) with 1%Q. lra.
    - assert (Z : (b' - b)%Qc <> 0%Qc) by (intros e; apply D; replace b' with (b' - b + b)%Qc by ring; rewrite e; ring). apply sq_pos in Z. pose proof (sq_nonneg (a' - a)) as W. revert Z W. generalize ((a' - a) * (a' - a))%Qc ((b' - b) * (b' - b))%Qc. intros u v. unfold Qclt, Qcle. cbn [this Qcplus Qcmult Q2Qc]. rewrite ?Qred_correct. intros. change (this 1%Qc) with 1%Q. lra. }
  change (Q2Qc (2 # 1)) with (1 + 1)%Qc. change (Q2Qc (4 # 1)) with ((1 + 1) * (1 + 1))%Qc.
  match goal with |- (0 < ?t)%Qc => replace t with ((1 + 1) * ((a' - a) * (a' - a)) + (1 + 1) * (1 + 1) * ((b' - b) * (b' - b)))%Qc by ring end. exact P.
Qed.
Lemma flat_zero eps x g : (0 < eps)%Qc -> ~ nonzero g -> flat eps x g = true.
Proof.
  intros E NZ. unfold flat. apply qlt_true. assert (Z : v_dot g g = 0%Qc).
  { rewrite (v_dot_n (length g) g g eq_refl). unfold dot. rewrite (Sigma_ext _ _ (fun _ => 0)%Qc); [apply LinRespProofs.Sigma_0|]. intros i Hi. destruct (Qc_eq_dec (nth i g 0%Qc) 0%Qc) as [e|ne]; [rewrite e; ring|]. exfalso. apply NZ. exists i. split; assumption. }
  rewrite Z. exact E.
Qed.
(** x^4/40 - x^2/2, with its gradient; its minimum is at the root of 10 *)
Definition well (x : list Qc) : res Qc :=
  let u := (nth 0 x 0 * nth 0 x 0)%Qc in Ok (u * u * Q2Qc (1 # 40) - u * Q2Qc (1 # 2))%Qc.
Definition well_grad (x : list Qc) : res (list Qc) := Ok [(nth 0 x 0 * nth 0 x 0 * nth 0 x 0 * Q2Qc (1 # 10) - nth 0 x 0)%Qc].
Lemma well_throws max_iter : bfgs_identity well well_grad (flat (Q2Qc (1 # 100))) [1%Qc] max_iter = Err Throw.
Proof. destruct max_iter as [|[|k]]; vm_compute; reflexivity. Qed.
Lemma well_other : exists x, bfgs_identity well well_grad (flat (Q2Qc (1 # 100))) [Q2Qc (2 # 1)] 20 = Ok x.
Proof. destruct (bfgs_identity well well_grad (flat (Q2Qc (1 # 100))) [Q2Qc (2 # 1)] 20) eqn:E; [eexists; reflexivity|]. vm_compute in E. discriminate E. Qed.
Definition is_ok {A} (r : res A) : bool := match r with Ok _ => true | Err _ => false end.
Lemma is_ok_ok {A} (r : res A) : is_ok r = true -> exists a, r = Ok a.
Proof. destruct r as [a|]; [exists a; reflexivity|discriminate]. Qed.
Lemma bowl_bfgs : exists x, bfgs_identity bowl bowl_grad (flat (Q2Qc (1 # 10000))) bowl_start 20 = Ok x.
Proof. apply is_ok_ok. vm_compute. reflexivity. Qed.
Lemma bowl_bfgs_updated : exists r, bfgs bowl bowl_grad (flat (Q2Qc (1 # 10000))) bowl_start make_updated_scaled_hessian 20 = Ok r.
Proof. apply is_ok_ok. vm_compute. reflexivity. Qed.
Definition down_dir : list Qc := [(- Q2Qc (2 # 1))%Qc; (- Q2Qc (4 # 1))%Qc].
Definition ex_h : list (list Qc * list Qc) := [([1%Qc; 1%Qc], [Q2Qc (2 # 1); Q2Qc (4 # 1)]); ([0%Qc; 1%Qc], [0%Qc; Q2Qc (4 # 1)])].
Lemma ex_h_ok : steps_ok 2 ex_h /\ positive_curvature 2 ex_h.
Proof. split; intros s y [E|[E|[]]]; injection E as <- <-; try (split; [reflexivity|split; [reflexivity|]]; intros D; apply (f_equal this) in D; vm_compute in D; discriminate D); vm_compute; reflexivity. Qed.
Lemma grid_rises : ~ forall eval grad x0 p s x f g f0, discrete_line_search eval grad x0 p = Ok (s, x, f, g) -> eval x0 = Ok f0 -> (f <= f0)%Qc.
Proof.
  intros H. destruct (discrete_line_search bowl bowl_grad [0%Qc; 0%Qc] [1%Qc; 0%Qc]) as [[[[s x] f] g]|e] eqn:E.
  - specialize (H bowl bowl_grad [0%Qc; 0%Qc] [1%Qc; 0%Qc] s x f g 0%Qc E). 
    assert (F : bowl [0%Qc; 0%Qc] = Ok 0%Qc) by (vm_compute; f_equal; apply Qc_is_canon; reflexivity). apply H in F.
    assert (P : match discrete_line_search bowl bowl_grad [0%Qc; 0%Qc] [1%Qc; 0%Qc] with Ok (_, _, f, _) => qlt 0 f | Err _ => false end = true) by (vm_compute; reflexivity).
    rewrite E in P. apply qlt_true in P. exact (Qclt_not_le _ _ P F).
  - vm_compute in E. discriminate E.
Qed.
Lemma well_computable : computable 1 well well_grad.
Proof. intros x _. split; [eexists; reflexivity|]. eexists. split; reflexivity. Qed.
Lemma well_facts : computable 1 well well_grad /\ (exists x, bfgs_identity well well_grad (flat (Q2Qc (1 # 100))) [Q2Qc (2 # 1)] 20 = Ok x) /\
  forall max_iter, bfgs_identity well well_grad (flat (Q2Qc (1 # 100))) [1%Qc] max_iter = Err Throw.
Proof. exact (conj well_computable (conj well_other well_throws)). Qed.
Lemma g_default eval grad converged x0 max_iter x : bfgs_identity eval grad converged x0 max_iter = Ok x <-> exists B, bfgs eval grad converged x0 make_identity_hessian max_iter = Ok (x, B).
Proof.
  rewrite g_identity. split.
  - intros H. binv H r R. injection H as <-. destruct r as [u B]. exists B. exact R.
  - intros (B & ->). reflexivity.
Qed.

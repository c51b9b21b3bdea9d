(** Statements of Props_Lobpcg from the lemmas. *)
From Coq Require Import QArith Qcanon Lqa.
From Verif Require Import Base SD Sums Ham Asci AsciSort Mem MemProofs DenseSpec DenseProofs DiisSpec DiisProofs DiisProofs2 DavSpec DavProofs DavProofs2 DavProofs3 ExpandProofs RotInvProofs Lobpcg LobpcgSpec LobpcgProofs LobpcgProofs2 LobpcgProofs3 LobpcgProofs4.
Local Open Scope nat_scope.

Lemma linv_value N K A root pk st i : linv N K A root pk st -> i < K -> nth i (s_LAM st) 0%Qc = expectation N A (nth i (s_X st) []).
Proof. intros I Hi. rewrite <- coupling_self, (li_D _ _ _ _ _ _ I) by exact Hi. rewrite Nat.eqb_refl. reflexivity. Qed.
Lemma linv_orth N K A root pk st : linv N K A root pk st -> orthonormal N K (s_X st).
Proof. intros I a b Ha Hb. pose proof (li_O _ _ _ _ _ _ I a b ltac:(lia) ltac:(lia)) as O. rewrite !app_nth1 in O by (rewrite (proj1 (li_X _ _ _ _ _ _ I)); lia). exact O. Qed.

Section RESULT.
  Variables (N K NR : nat) (A : nat -> nat -> Qc) (root : Qc -> Qc) (syev : nat -> matrix -> res (list Qc * matrix)) (potrf : nat -> matrix -> res matrix) (gelqf : nat -> nat -> matrix -> res matrix) (op kop : matrix -> res matrix) (check : nat -> list Qc -> list Qc -> Qc -> bool)
    (sett : lobpcg_settings) (V : matrix) (LWORK : Z) (o : l_output).
  Hypotheses (SA : symmetric2 N A) (OP : multiplies_blocks N A op) (KO : keeps_shape N kop) (SY : diagonaliser syev) (CH : cholesky potrf) (LQ : orthogonal_factor gelqf)
    (CV : columns N K V) (OV : orthonormal N K V) (HNR : NR <= K) (RUN : lobpcg root syev potrf gelqf op kop check sett N K NR V LWORK = Ok (inr o)).
  Lemma result : columns N K (o_V o) /\ orthonormal N K (o_V o) /\ length (o_LAMR o) = NR /\ length (o_res o) = NR /\ ritz_pairs N NR A (o_LAMR o) (firstn NR (o_V o)) /\
    (forall i, i < NR -> nth i (o_LAMR o) 0%Qc = expectation N A (nth i (o_V o) []) /\ relative_residual root N A (nth i (o_LAMR o) 0%Qc) (nth i (o_V o) []) (nth i (o_res o) 0%Qc)).
  Proof.
    destruct (run_inv N K A root syev potrf gelqf op kop check SA SY CH LQ OP KO sett NR V LWORK o CV OV RUN) as (pk & st & b & -> & I & _). cbn [output o_V o_LAMR o_res].
    pose proof (li_L _ _ _ _ _ _ I) as LL. pose proof (linv_orth _ _ _ _ _ _ I) as OX.
    split; [exact (li_X _ _ _ _ _ _ I)|]. split; [exact OX|]. split; [rewrite firstn_length; lia|]. split; [rewrite firstn_length, (li_rel _ _ _ _ _ _ I); lia|]. split.
    - split; [apply (columns_firstn N K); [exact (li_X _ _ _ _ _ _ I)|exact HNR]|]. split; [apply (orth_firstn N K); assumption|]. split.
      + intros i j Hij Hj. rewrite !nth_firstn_lt by lia. apply (li_asc _ _ _ _ _ _ I); lia.
      + intros i j Hi Hj. rewrite !nth_firstn_lt by assumption. apply (li_D _ _ _ _ _ _ I); lia.
    - intros i Hi. rewrite !nth_firstn_lt by exact Hi. split; [apply (linv_value N K A root pk); [exact I|lia]|]. apply (li_res _ _ _ _ _ _ I). lia.
  Qed.
  Lemma converged : o_converged o = true -> exists ABS REL, length ABS = K /\ length REL = K /\ o_res o = firstn NR REL /\ check NR ABS REL (l_conv_tol sett) = true /\
    forall i, i < K -> let lam := expectation N A (nth i (o_V o) []) in
      absolute_residual root N A lam (nth i (o_V o) []) (nth i ABS 0%Qc) /\ relative_residual root N A lam (nth i (o_V o) []) (nth i REL 0%Qc).
  Proof.
    destruct (run_inv N K A root syev potrf gelqf op kop check SA SY CH LQ OP KO sett NR V LWORK o CV OV RUN) as (pk & st & b & -> & I & B & _). cbn [output o_V o_LAMR o_res o_converged].
    intros Hb. exists (s_ABS st), (s_REL st). split; [exact (li_abs _ _ _ _ _ _ I)|]. split; [exact (li_rel _ _ _ _ _ _ I)|]. split; [reflexivity|]. split; [apply B; exact Hb|]. intros i Hi. cbv zeta. rewrite <- (linv_value N K A root pk st i I Hi). apply (li_res _ _ _ _ _ _ I). exact Hi.
  Qed.
  Lemma bounds : (forall b i, spectrum_above N A b -> i < NR -> (b <= nth i (o_LAMR o) 0)%Qc) /\
    (forall k C, k <= NR -> length C = k -> orthonormal K k C -> (first_sum k (o_LAMR o) <= Sigma k (fun i => expectation N A (combination N V (nth i C []))))%Qc).
  Proof.
    destruct (run_inv N K A root syev potrf gelqf op kop check SA SY CH LQ OP KO sett NR V LWORK o CV OV RUN) as (pk & st & b & -> & I & B & G & _). cbn [output o_V o_LAMR o_res o_converged]. split.
    - intros c i Sp Hi. rewrite nth_firstn_lt by exact Hi. rewrite (linv_value N K A root pk st i I ltac:(lia)). specialize (Sp (nth i (s_X st) [])). rewrite (linv_orth _ _ _ _ _ _ I i i), Nat.eqb_refl, Qcmult_1_r in Sp by lia. exact Sp.
    - intros k C Hk LC OC. rewrite first_sum_firstn by exact Hk. apply G; [lia|assumption|assumption].
  Qed.
  Lemma history : sums_descend K (map (fun e => fst (fst e)) (o_conv o)) /\ (forall e, In e (o_conv o) -> length (fst (fst e)) = K) /\
    length (o_conv o) <= Z.to_nat (l_maxiter sett) /\ (o_converged o = false -> l_track_convergence sett = true -> length (o_conv o) = Z.to_nat (l_maxiter sett)) /\
    (l_track_convergence sett = false -> o_conv o = []).
  Proof.
    destruct (run_inv N K A root syev potrf gelqf op kop check SA SY CH LQ OP KO sett NR V LWORK o CV OV RUN) as (pk & st & b & -> & I & B & G & D & LE & TF & LN & LT). cbn [output o_V o_LAMR o_res o_converged o_conv].
    split; [exact D|]. split; [exact LE|]. split; [exact LN|]. split; assumption.
  Qed.
End RESULT.

Lemma nth_forallb (f : Qc -> bool) l i : forallb f l = true -> i < length l -> f (nth i l 0%Qc) = true.
Proof. intros H Hi. rewrite forallb_forall in H. apply H, nth_In. exact Hi. Qed.
Lemma simple_converged N K NR A root syev potrf gelqf op kop sett V o :
  symmetric2 N A -> multiplies_blocks N A op -> keeps_shape N kop -> diagonaliser syev -> cholesky potrf -> orthogonal_factor gelqf -> columns N K V -> orthonormal N K V -> NR <= K ->
  lobpcg_simple root syev potrf gelqf op kop sett N K NR V = Ok (inr o) -> o_converged o = true -> forall i, i < NR -> (nth i (o_res o) 0 < l_conv_tol sett)%Qc.
Proof.
  intros SA OP KO SY CH LQ CV OV HNR RUN C i Hi. destruct (converged N K NR A root syev potrf gelqf op kop _ sett V _ o SA OP KO SY CH LQ CV OV RUN C) as (ab & re & La & Lr & E & CK & _).
  rewrite E. apply qlt_true. unfold lobpcg_relres_convergence_check in CK. apply (nth_forallb (fun r => qlt r (l_conv_tol sett))); [exact CK|]. rewrite firstn_length. lia.
Qed.
Lemma absolute_converged N K NR A root syev potrf gelqf op kop sett V LWORK o :
  symmetric2 N A -> multiplies_blocks N A op -> keeps_shape N kop -> diagonaliser syev -> cholesky potrf -> orthogonal_factor gelqf -> columns N K V -> orthonormal N K V -> NR <= K ->
  lobpcg root syev potrf gelqf op kop lobpcg_absres_convergence_check sett N K NR V LWORK = Ok (inr o) -> o_converged o = true ->
  forall i, i < NR -> (root (residual2 N A (nth i (o_LAMR o) 0) (nth i (o_V o) [])) < l_conv_tol sett)%Qc.
Proof.
  intros SA OP KO SY CH LQ CV OV HNR RUN C i Hi. destruct (converged N K NR A root syev potrf gelqf op kop _ sett V _ o SA OP KO SY CH LQ CV OV RUN C) as (ab & re & La & Lr & E & CK & R).
  destruct (result N K NR A root syev potrf gelqf op kop _ sett V _ o SA OP KO SY CH LQ CV OV HNR RUN) as (_ & _ & _ & _ & _ & RE). destruct (RE i Hi) as (EX & _). destruct (R i ltac:(lia)) as (AB & _). rewrite EX. unfold absolute_residual in AB. rewrite <- AB.
  apply qlt_true. unfold lobpcg_absres_convergence_check in CK. rewrite <- (nth_firstn_lt ab NR) by exact Hi. apply (nth_forallb (fun r => qlt r (l_conv_tol sett))); [exact CK|]. rewrite firstn_length. lia.
Qed.

(** ** no access outside the arrays *)
Definition nub {B} (r : res B) : Prop := r <> Err UB.
Lemma nub_bind {B C} (m : res B) (f : B -> res C) : nub m -> (forall a, m = Ok a -> nub (f a)) -> nub (do x <- m; f x).
Proof. unfold nub. destruct m as [a|e]; cbn; intros H F; [apply F; reflexivity|intros E; injection E as ->; apply H; reflexivity]. Qed.
Lemma nub_ok {B} (a : B) : nub (Ok a). Proof. discriminate. Qed.
Lemma nub_fdiv a b : nub (fdiv a b). Proof. unfold fdiv. destruct (Qc_eq_dec b 0); discriminate. Qed.
Lemma nub_mapM {B C} (f : B -> res C) l : (forall x, nub (f x)) -> nub (mapM f l).
Proof. intros H. induction l as [|x l IH]; [apply nub_ok|]. cbn. apply nub_bind; [apply H|]. intros y _. apply nub_bind; [exact IH|]. intros; apply nub_ok. Qed.
Lemma nub_foldM {B C} (f : C -> B -> res C) l : (forall s x, nub (f s x)) -> forall s, nub (foldM l f s).
Proof. intros H. induction l as [|x l IH]; intros s; [apply nub_ok|]. cbn. apply nub_bind; [apply H|]. intros; apply IH. Qed.
Section NUB.
  Variables (N K NR : nat) (root : Qc -> Qc) (syev : nat -> matrix -> res (list Qc * matrix)) (potrf : nat -> matrix -> res matrix) (gelqf : nat -> nat -> matrix -> res matrix) (op kop : matrix -> res matrix) (check : nat -> list Qc -> list Qc -> Qc -> bool) (sett : lobpcg_settings).
  Hypotheses (HK : K <= N) (HNR : NR <= K) (NS : forall k M, nub (syev k M)) (NP : forall k M, nub (potrf k M)) (NG : forall k m M, nub (gelqf k m M)) (NO : forall M, nub (op M)) (NKO : forall M, length M = K -> nub (kop M)).
  Lemma nub_cholqr V r : nub (cholqr potrf N K V r).
  Proof. unfold cholqr. apply nub_foldM. intros U _. apply nub_bind; [apply NP|]. intros L _. unfold trsm. apply nub_foldM. intros s x. apply nub_bind; [apply nub_mapM; intros; apply nub_fdiv|intros; apply nub_ok]. Qed.
  Lemma nub_residuals X AX W : nub (residuals root N K X AX W).
  Proof. unfold residuals. apply nub_bind; [|intros; apply nub_ok]. apply nub_mapM. intros i. unfold residual_of. cbv zeta. apply nub_bind; [apply nub_fdiv|intros; apply nub_ok]. Qed.
  Lemma residuals_length X AX W V ab re : residuals root N K X AX W = Ok (V, ab, re) -> length V = K.
  Proof. unfold residuals. intros H. apply bind_inv in H. destruct H as (rs & H & E). injection E as <- _ _. apply (mapM_seq_inv _ K rs ([], 0%Qc, 0%Qc)) in H. rewrite map_length. tauto. Qed.
  Lemma nub_reverse V : length V = K -> nub (reverse_columns K V) /\ forall V', reverse_columns K V = Ok V' -> length V' = K.
  Proof.
    intros L. unfold reverse_columns. assert (B : forall i, In i (seq 0 (K / 2)) -> i < K). { intros i Hi. apply in_seq in Hi. pose proof (Nat.div_le_upper_bound K 2 K ltac:(lia) ltac:(lia)). lia. }
    revert V L B. generalize (seq 0 (K / 2)) as l. induction l as [|i l IH]; intros V L B; cbn [foldM]; [split; [apply nub_ok|intros V' [= <-]; exact L]|].
    assert (Hi : i < K) by (apply B; left; reflexivity). rewrite (at_ok V i []) by lia. cbn [bind]. rewrite (at_ok V (K - 1 - i) []) by lia. cbn [bind]. rewrite put_ok by lia. cbn [bind]. rewrite put_ok by (rewrite upd_length; lia). cbn [bind].
    apply IH; [rewrite !upd_length; exact L|]. intros j Hj. apply B. right. exact Hj.
  Qed.
  Lemma nub_step iter st : length (s_V st) = K -> nub (l_step root syev potrf gelqf op kop N K iter st) /\ forall st', l_step root syev potrf gelqf op kop N K iter st = Ok st' -> length (s_V st') = K.
  Proof.
    intros L. destruct (nub_reverse (s_V st) L) as (R1 & R2). unfold l_step. cbv zeta. split.
    - apply nub_bind; [exact R1|]. intros V HV. apply nub_bind; [apply NKO, R2; exact HV|]. intros W HW. destruct (Nat.ltb_spec (2 * N * K) ((if iter =? 0 then 1 else 2) * K * K)) as [Lt|_]; [exfalso; destruct (iter =? 0); nia|].
      apply nub_bind; [apply nub_cholqr|]. intros U _. apply nub_bind; [destruct (_ =? 0); [apply NO|apply nub_bind; [apply NO|intros; apply nub_ok]]|]. intros AS _. apply nub_bind; [apply NS|]. intros [LAM C] _. apply nub_bind; [apply NG|]. intros QH _. apply nub_bind; [apply nub_residuals|]. intros [[R ab] re] _. apply nub_ok.
    - intros st' H. apply bind_inv in H. destruct H as (V & _ & H). apply bind_inv in H. destruct H as (W & _ & H). destruct (_ <? _); [discriminate|]. apply bind_inv in H. destruct H as (U & _ & H). apply bind_inv in H. destruct H as (AS & _ & H). apply bind_inv in H. destruct H as ([LAM C] & _ & H). apply bind_inv in H. destruct H as (QH & _ & H). apply bind_inv in H. destruct H as ([[R ab] re] & HR & H). injection H as <-. cbn [s_V]. eapply residuals_length; exact HR.
  Qed.
  Lemma nub_loop : forall left iter st, length (s_V st) = K -> nub (l_loop root syev potrf gelqf op kop check sett N K NR left iter st).
  Proof.
    induction left as [|left IH]; intros iter st L; cbn [l_loop]; [apply nub_ok|]. set (st1 := if l_track_convergence sett then _ else st). assert (L1 : length (s_V st1) = K) by (unfold st1; destruct (l_track_convergence sett); exact L). clearbody st1.
    destruct (Nat.ltb_spec K NR); [lia|]. destruct (check _ _ _ _); [apply nub_ok|]. destruct (nub_step iter st1 L1) as (S1 & S2). apply nub_bind; [exact S1|]. intros st2 H2. apply IH. apply S2. exact H2.
  Qed.
  Lemma nub_lobpcg V LWORK : nub (lobpcg root syev potrf gelqf op kop check sett N K NR V LWORK).
  Proof.
    unfold lobpcg. cbv zeta. repeat match goal with |- nub (if ?b then _ else _) => destruct b; [discriminate|] end. apply nub_bind.
    - unfold l_start. apply nub_bind; [apply NO|]. intros AX _. apply nub_bind; [apply NS|]. intros [LAM C] _. cbv zeta. apply nub_bind; [apply nub_residuals|]. intros [[R ab] re] _. apply nub_ok.
    - intros st HS. apply nub_bind; [|intros; apply nub_ok]. apply nub_loop. unfold l_start in HS. apply bind_inv in HS. destruct HS as (AX & _ & H). apply bind_inv in H. destruct H as ([LAM C] & _ & H). cbv zeta in H. apply bind_inv in H. destruct H as ([[R ab] re] & HR & H). injection H as <-. cbn [s_V]. eapply residuals_length; exact HR.
  Qed.
End NUB.
Lemma workspace root syev potrf gelqf op kop check sett N K NR V LWORK :
  ((LWORK < 0)%Z -> lobpcg root syev potrf gelqf op kop check sett N K NR V LWORK = Ok (inl (8 * N * K + 9 * K * K + 5 * K))) /\
  ((0 <= LWORK)%Z -> (LWORK < Z.of_nat (8 * N * K + 9 * K * K + 5 * K))%Z -> lobpcg root syev potrf gelqf op kop check sett N K NR V LWORK = Err Throw).
Proof.
  unfold lobpcg. cbv zeta. unfold lobpcg_lwork. split.
  - intros H. destruct (Z.ltb_spec LWORK 0); [reflexivity|lia].
  - intros H H'. destruct (Z.ltb_spec LWORK 0); [lia|]. destruct (Z.ltb_spec LWORK (Z.of_nat (8 * N * K + 9 * K * K + 5 * K))); [reflexivity|lia].
Qed.

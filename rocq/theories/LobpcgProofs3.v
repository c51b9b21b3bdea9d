(** One iteration of the block eigensolver. *)
From Coq Require Import QArith Qcanon Lqa.
From Verif Require Import Base SD Sums Ham Asci AsciSort Mem MemProofs DenseSpec DenseProofs DiisSpec DiisProofs DiisProofs2 DavSpec DavProofs DavProofs2 DavProofs3 ExpandProofs RotInvProofs Lobpcg LobpcgSpec LobpcgProofs LobpcgProofs2.
Local Open Scope nat_scope.

Lemma coupling_lin_r n A S c x : coupling n A x (gemv_nn n S c) = Sigma (length S) (fun l => nth l c 0 * coupling n A x (nth l S []))%Qc.
Proof.
  unfold coupling. rewrite (Sigma_ext n _ (fun i => Sigma (length S) (fun l => nth i x 0 * (matvec n A (nth l S []) i * nth l c 0)))%Qc).
  - rewrite Sigma_swap. apply Sigma_ext. intros l Hl. rewrite <- Sigma_scale. apply Sigma_ext. intros i Hi. ring.
  - intros i Hi. rewrite (matvec_lin n A (length S) S (fun l => nth l c 0%Qc)) by (intros m Hm; apply gemv_nth; exact Hm). rewrite Sigma_scale. reflexivity.
Qed.
Lemma coupling_gemv n A S M c c' : symmetric2 n A -> (forall i j, i < length S -> j < length S -> M i j = coupling n A (nth i S []) (nth j S [])) ->
  coupling n A (gemv_nn n S c) (gemv_nn n S c') = coupling (length S) M c c'.
Proof.
  intros SA HM. rewrite dot_sym_ops by exact SA. rewrite coupling_lin_r. apply Sigma_ext. intros i Hi. apply (f_equal (Qcmult _)). rewrite dot_sym_ops by exact SA. rewrite coupling_lin_r. apply Sigma_ext. intros j Hj. rewrite HM by assumption. ring.
Qed.
Lemma units_orth d k : k <= d -> orthonormal d k (map (unit_vector d) (seq 0 k)).
Proof.
  intros Hk a b Ha Hb. rewrite !(nth_map_seq (unit_vector d)) by assumption. unfold dot.
  rewrite (Sigma_ext d _ (fun i => (if i =? a then 1 else 0) * (if i =? b then 1 else 0))%Qc).
  - rewrite Sigma_delta by lia. reflexivity.
  - intros i Hi. unfold unit_vector. rewrite !nth_seq_map by exact Hi. reflexivity.
Qed.
Lemma expectation_unit d M i : i < d -> expectation d M (unit_vector d i) = M i i.
Proof.
  intros Hi. unfold expectation, matvec. rewrite (Sigma_ext d _ (fun a => (if a =? i then 1 else 0) * M a i)%Qc).
  - rewrite Sigma_delta by exact Hi. reflexivity.
  - intros a Ha. unfold unit_vector at 1. rewrite nth_seq_map by exact Ha. apply (f_equal (Qcmult _)). rewrite (Sigma_ext d _ (fun j => (if j =? i then 1 else 0) * M a j)%Qc).
    + rewrite Sigma_delta by exact Hi. reflexivity.
    + intros j Hj. unfold unit_vector. rewrite nth_seq_map by exact Hj. ring.
Qed.

Section STEP.
  Variables (N K : nat) (A : nat -> nat -> Qc) (root : Qc -> Qc) (syev : nat -> matrix -> res (list Qc * matrix)) (potrf : nat -> matrix -> res matrix) (gelqf : nat -> nat -> matrix -> res matrix) (op kop : matrix -> res matrix).
  Hypotheses (SA : symmetric2 N A) (SY : diagonaliser syev) (CH : cholesky potrf) (LQ : orthogonal_factor gelqf) (OP : multiplies_blocks N A op) (KO : keeps_shape N kop).

  Lemma rr_inv d S AS LAM C : columns N d S -> orthonormal N d S -> image N A S AS -> l_rayleigh_ritz syev N d S AS = Ok (LAM, C) ->
    length LAM = d /\ columns d d C /\ orthonormal d d C /\ ascending LAM /\
    (forall i j, i < d -> j < d -> coupling N A (gemv_nn N S (nth i C [])) (gemv_nn N S (nth j C [])) = if i =? j then nth i LAM 0%Qc else 0%Qc) /\
    (forall k, k <= d -> (first_sum k LAM <= Sigma k (fun i => expectation N A (nth i S [])))%Qc) /\
    (forall k X, k <= d -> length X = k -> orthonormal d k X -> (first_sum k LAM <= Sigma k (fun i => expectation N A (gemv_nn N S (nth i X []))))%Qc).
  Proof.
    intros (LS & HS) O (LI & IM) H. unfold l_rayleigh_ritz in H. set (M := gemm_ct N S AS) in *.
    assert (EM : forall i j, i < length S -> j < length S -> entry M i j = coupling N A (nth i S []) (nth j S [])).
    { intros i j Hi Hj. unfold M. rewrite gemm_ct_entry by lia. apply (image_dot N A S AS); [split; assumption|exact Hj]. }
    assert (SM : symmetric2 d (entry M)). { intros i j Hi Hj. rewrite !EM by lia. apply dot_sym_ops. exact SA. }
    assert (CM : columns d d M). { split; [unfold M, gemm_ct; rewrite map_length; lia|]. intros c I. unfold M, gemm_ct in I. apply in_map_iff in I. destruct I as (y & <- & _). rewrite map_length. exact LS. }
    destruct (SY _ _ _ _ H CM SM) as (LW & CC & OC & AW & ROW & EIG). split; [exact LW|]. split; [exact CC|]. split; [exact OC|]. split; [exact AW|]. split.
    - intros i j Hi Hj. rewrite (coupling_gemv N A S (entry M)) by assumption. rewrite LS. rewrite (eig_dot d (entry M) LAM C SM EIG i (nth j C []) Hi). rewrite OC by assumption. destruct (i =? j); ring.
    - split.
      { intros k Hk. pose proof (ky_fan d (entry M) LAM C (proj1 CC) SM ROW EIG k (map (unit_vector d) (seq 0 k)) AW LW Hk ltac:(rewrite map_length, seq_length; reflexivity) (units_orth d k Hk) OC) as F.
      rewrite (Sigma_ext k _ (fun i => expectation N A (nth i S []))) in F; [exact F|]. intros i Hi. rewrite (nth_map_seq (unit_vector d)) by exact Hi. rewrite expectation_unit by lia. rewrite EM by lia. reflexivity. }
      intros k X Hk LX OX. pose proof (ky_fan d (entry M) LAM C (proj1 CC) SM ROW EIG k X AW LW Hk LX OX OC) as F. rewrite (Sigma_ext k _ (fun i => expectation N A (gemv_nn N S (nth i X [])))) in F; [exact F|].
      intros i Hi. rewrite <- !coupling_self. rewrite (coupling_gemv N A S (entry M)) by assumption. rewrite LS. reflexivity.
  Qed.

  Lemma residuals_inv X AX W V ab re : columns N K X -> image N A X AX -> residuals root N K X AX W = Ok (V, ab, re) ->
    columns N K V /\ length ab = K /\ length re = K /\
    forall i, i < K -> absolute_residual root N A (nth i W 0%Qc) (nth i X []) (nth i ab 0%Qc) /\ relative_residual root N A (nth i W 0%Qc) (nth i X []) (nth i re 0%Qc).
  Proof.
    intros (LX & CX) (LI & IM) H. unfold residuals in H. apply bind_inv in H. destruct H as (rs & H & X0). injection X0 as <- <- <-.
    destruct (mapM_seq_inv _ K rs ([], 0%Qc, 0%Qc) H) as (L & E).
    assert (N1 : forall i, i < K -> nth i (map (fun r => snd (fst r)) rs) 0%Qc = snd (fst (nth i rs ([], 0%Qc, 0%Qc)))) by (intros i Hi; exact (map_nth (fun r : list Qc * Qc * Qc => snd (fst r)) rs ([], 0%Qc, 0%Qc) i)).
    assert (N2 : forall i, i < K -> nth i (map snd rs) 0%Qc = snd (nth i rs ([], 0%Qc, 0%Qc))) by (intros i Hi; exact (map_nth (fun r : list Qc * Qc * Qc => snd r) rs ([], 0%Qc, 0%Qc) i)).
    split; [split|split; [|split]]; rewrite ?map_length; auto.
    - intros c I. apply in_map_iff in I. destruct I as (r & <- & I). apply (In_nth _ _ ([], 0%Qc, 0%Qc)) in I. destruct I as (i & Hi & Er). specialize (E i ltac:(lia)). rewrite Er in E. unfold residual_of in E. apply bind_inv in E. destruct E as (x & _ & E). injection E as <-. cbn [fst]. rewrite map_length, seq_length. reflexivity.
    - intros i Hi. rewrite N1, N2 by exact Hi. specialize (E i Hi). destruct (nth i rs ([], 0%Qc, 0%Qc)) as [[r a] q]. unfold residual_of in E. apply bind_inv in E. destruct E as (x & D & E). injection E as <- <- <-. cbn [fst snd]. apply fdiv_inv in D. destruct D as (NZ & D).
      destruct (IM i ltac:(lia)) as (_ & Ei). unfold entry in Ei.
      assert (R2 : forall r, r = map (fun m => nth m (nth i AX []) 0 + - nth i W 0 * nth m (nth i X []) 0)%Qc (seq 0 N) -> c_dot N r r = residual2 N A (nth i W 0%Qc) (nth i X [])).
      { intros r ->. rewrite c_dot_dot. unfold dot, residual2, norm2. apply Sigma_ext. intros m Hm. rewrite nth_seq_map by exact Hm. rewrite Ei by exact Hm. ring. }
      assert (A2 : c_dot N (nth i AX []) (nth i AX []) = norm2 N (matvec N A (nth i X []))).
      { rewrite c_dot_dot. unfold dot, norm2. apply Sigma_ext. intros m Hm. rewrite Ei by exact Hm. reflexivity. }
      unfold absolute_residual, relative_residual. rewrite (R2 _ eq_refl) in D |- *. split; [reflexivity|]. rewrite A2 in D, NZ. rewrite D. fold (Qcabs (nth i W 0%Qc)). field. exact NZ.
  Qed.
  Lemma reverse_columns_inv V V' : columns N K V -> reverse_columns K V = Ok V' -> columns N K V'.
  Proof.
    unfold reverse_columns. generalize (seq 0 (K / 2)) as l. intros l. revert V. induction l as [|i l IH]; intros V (L & CV) H; cbn [foldM] in H; [injection H as <-; split; assumption|].
    apply bind_inv in H. destruct H as (V1 & H & R). apply (IH V1); [|exact R]. clear IH R.
    apply bind_inv in H. destruct H as (a & Ha & H). apply bind_inv in H. destruct H as (b & Hb & H). apply bind_inv in H. destruct H as (V2 & H2 & H).
    assert (Ia : forall j x, at_ V j = Ok x -> In x V) by (intros j x Hx; unfold at_ in Hx; destruct (nth_error V j) eqn:E; [injection Hx as <-; eapply nth_error_In; exact E|discriminate]).
    assert (UP : forall U j x U', columns N K U -> length x = N -> put U j x = Ok U' -> columns N K U').
    { intros U j x U' (LU & CU) Lx P. apply put_inv in P. destruct P as (-> & Hj). split; [rewrite upd_length; exact LU|]. intros c I. apply (In_nth _ _ []) in I. destruct I as (m & Hm & <-). rewrite upd_length in Hm. rewrite upd_nth by exact Hj. destruct (m =? j); [exact Lx|]. apply CU, nth_In. exact Hm. }
    eapply UP; [|apply CV, (Ia _ _ Ha)|exact H]. eapply UP; [split; [exact L|exact CV]|apply CV, (Ia _ _ Hb)|exact H2].
  Qed.

  (** what holds for the basis, the values and the residuals in every iteration; [pk] columns P *)
  Record linv (pk : nat) (st : l_state) : Prop := mk_linv {
    li_X : columns N K (s_X st); li_P : columns N pk (s_P st); li_O : orthonormal N (K + pk) (s_X st ++ s_P st);
    li_AX : image N A (s_X st) (s_AX st); li_AP : image N A (s_P st) (s_AP st);
    li_D : forall i j, i < K -> j < K -> coupling N A (nth i (s_X st) []) (nth j (s_X st) []) = if i =? j then nth i (s_LAM st) 0%Qc else 0%Qc;
    li_L : K <= length (s_LAM st); li_asc : ascending (s_LAM st);
    li_V : columns N K (s_V st); li_abs : length (s_ABS st) = K; li_rel : length (s_REL st) = K;
    li_res : forall i, i < K -> absolute_residual root N A (nth i (s_LAM st) 0%Qc) (nth i (s_X st) []) (nth i (s_ABS st) 0%Qc) /\ relative_residual root N A (nth i (s_LAM st) 0%Qc) (nth i (s_X st) []) (nth i (s_REL st) 0%Qc) }.

  Lemma step_inv iter st st' : linv (if iter =? 0 then 0 else K) st -> l_step root syev potrf gelqf op kop N K iter st = Ok st' ->
    linv K st' /\ s_conv st' = s_conv st /\ forall k, k <= K -> (first_sum k (s_LAM st') <= first_sum k (s_LAM st))%Qc.
  Proof.
    intros I H. unfold l_step in H. set (XP := s_X st ++ s_P st) in *. set (pk := if iter =? 0 then 0 else K) in *. set (dx := (if iter =? 0 then 1 else 2) * K) in *.
    assert (Edx : dx = K + pk) by (unfold dx, pk; destruct (iter =? 0); lia). clearbody dx. rewrite Edx in *. clear dx Edx.
    apply bind_inv in H. destruct H as (V & HV & H). apply bind_inv in H. destruct H as (W & HW & H). apply (reverse_columns_inv _ _ (li_V _ _ I)) in HV. apply (KO _ _ _ HV) in HW.
    destruct (2 * N * K <? (K + pk) * K); [discriminate|]. cbv zeta in H.
    assert (CXP : columns N (K + pk) XP) by (apply columns_app; [exact (li_X _ _ I)|exact (li_P _ _ I)]).
    assert (LXP : length XP = K + pk) by exact (proj1 CXP).
    pose proof (project_columns N XP W K HW) as C1. pose proof (project_columns N XP _ K C1) as Cp2.
    assert (OXP : orthonormal N (length XP) XP) by (rewrite LXP; exact (li_O _ _ I)).
    pose proof (project_orth N XP _ K OXP C1) as Z. rewrite LXP in Z.
    apply bind_inv in H. destruct H as (U & HU & H). destruct (cholqr_inv N K potrf _ U 2 CH (proj1 Cp2) ltac:(lia) HU) as (CU & OU & ZU). 
    assert (ZU' : forall i j, i < K + pk -> j < K -> dot N (nth i XP []) (nth j U []) = 0%Qc). { intros i j Hi Hj. apply ZU; [|exact Hj]. intros j' Hj'. apply Z; assumption. }
    pose proof (columns_app N _ _ XP U CXP CU) as CS. pose proof (orth_app N (K + pk) K XP U LXP (li_O _ _ I) OU ZU') as OS.
    apply bind_inv in H. destruct H as (AS & HAS & H).
    assert (IM : image N A (XP ++ U) AS).
    { destruct ((iter + 1) mod 20 =? 0); [exact (OP _ _ _ CS HAS)|]. apply bind_inv in HAS. destruct HAS as (AW & HAW & X). injection X as <-. rewrite app_assoc. apply image_app; [|exact (OP _ _ _ CU HAW)]. apply image_app; [exact (li_AX _ _ I)|exact (li_AP _ _ I)]. }
    set (S := XP ++ U) in *. set (d := K + pk + K) in *. assert (LS : length S = d) by exact (proj1 CS).
    apply bind_inv in H. destruct H as ([LAM C] & HR & H). destruct (rr_inv d S AS LAM C CS OS IM HR) as (LL & CC & OC & AW & DI & KY & KG).
    apply bind_inv in H. destruct H as (QH & HQ & H).
    assert (CQ : columns K (K + pk) (map (firstn K) (skipn K C))).
    { split; [rewrite map_length, skipn_length, (proj1 CC); unfold d; lia|]. intros c Ic. apply in_map_iff in Ic. destruct Ic as (y & <- & Iy). rewrite firstn_length. apply skipn_In in Iy. rewrite (proj2 CC y Iy). unfold d. lia. }
    destruct (LQ _ _ _ _ HQ CQ) as (CQH & OQH).
    set (C2 := rotate_basis d (skipn K C) QH) in *.
    assert (LC2 : columns d (K + pk) C2) by (apply rotate_columns; exact (proj1 CQH)).
    assert (LSK : length (skipn K C) = K + pk) by (rewrite skipn_length, (proj1 CC); unfold d; lia).
    assert (OSK : orthonormal d (K + pk) (skipn K C)). { intros a b Ha Hb. rewrite !nth_skipn_add. rewrite OC by (unfold d; lia). destruct (Nat.eqb_spec (K + a) (K + b)), (Nat.eqb_spec a b); try lia; reflexivity. }
    assert (OC2 : orthonormal d (K + pk) C2). { unfold C2. apply rotate_orth; [rewrite LSK; exact OSK|exact (proj1 CQH)|rewrite LSK; exact OQH]. }
    assert (CF : columns d K (firstn K C)) by (apply (columns_firstn d d); [exact CC|unfold d; lia]).
    assert (OCN : orthonormal d (K + (K + pk)) (firstn K C ++ C2)).
    { apply orth_app; [exact (proj1 CF)|apply (orth_firstn d d); [exact OC|unfold d; lia]|exact OC2|]. intros i j Hi Hj. unfold C2. rewrite rotate_nth by (rewrite (proj1 CQH); exact Hj). rewrite dot_gemv_r. rewrite LSK.
      rewrite (Sigma_ext _ _ (fun _ => 0)%Qc); [apply LinRespProofs.Sigma_0|]. intros l Hl. rewrite nth_firstn_lt by exact Hi. rewrite nth_skipn_add. rewrite OC by (unfold d; lia). destruct (Nat.eqb_spec i (K + l)); [lia|ring]. }
    set (CN := firstn K C ++ C2) in *.
    assert (CCN : columns d (K + (K + pk)) CN) by (apply columns_app; assumption).
    assert (K2 : 2 * K <= K + (K + pk)) by lia.
    pose proof (columns_firstn d _ CN (2 * K) CCN K2) as CB. pose proof (orth_firstn d _ CN (2 * K) OCN K2) as OB.
    set (SN := rotate_basis N S (firstn (2 * K) CN)) in *. set (ASN := rotate_basis N AS (firstn (2 * K) CN)) in *.
    assert (CSN : columns N (2 * K) SN) by (apply rotate_columns; exact (proj1 CB)).
    assert (OSN : orthonormal N (2 * K) SN). { apply rotate_orth; [rewrite LS; exact OS|exact (proj1 CB)|rewrite LS; exact OB]. }
    pose proof (image_rotate N A S AS (firstn (2 * K) CN) IM) as IMN. fold SN ASN in IMN.
    apply bind_inv in H. destruct H as ([[R ab] re] & HRES & H). injection H as <-.
    assert (CX : columns N K (firstn K SN)) by (apply (columns_firstn N (2 * K)); [exact CSN|lia]).
    destruct (residuals_inv _ _ _ _ _ _ CX (image_firstn N A SN ASN K IMN) HRES) as (CR & Lab & Lre & RES).
    split; [constructor; cbn [s_X s_P s_AX s_AP s_LAM s_V s_ABS s_REL]|cbn [s_conv s_LAM]; split; [reflexivity|]].
    - exact CX.
    - replace K with (2 * K - K) at 1 by lia. apply columns_skipn. exact CSN.
    - rewrite firstn_skipn. replace (K + K) with (2 * K) by lia. exact OSN.
    - apply image_firstn. exact IMN.
    - apply image_skipn. exact IMN.
    - intros i j Hi Hj. rewrite !nth_firstn_lt by assumption. unfold SN. rewrite !rotate_nth by (rewrite (proj1 CB); lia). rewrite !nth_firstn_lt by lia. unfold CN. rewrite !app_nth1 by (rewrite (proj1 CF); lia). rewrite !nth_firstn_lt by assumption. apply DI; unfold d; lia.
    - rewrite LL. unfold d. lia.
    - exact AW.
    - exact CR.
    - exact Lab.
    - exact Lre.
    - exact RES.
    - intros k Hk. eapply Qcle_trans; [apply KY; unfold d; lia|]. unfold first_sum. match goal with |- (?a <= ?b)%Qc => enough (E : a = b) by (rewrite E; apply Qcle_refl) end. apply Sigma_ext. intros i Hi. unfold S, XP. rewrite <- app_assoc, app_nth1 by (rewrite (proj1 (li_X _ _ I)); lia). rewrite <- coupling_self. rewrite (li_D _ _ I) by lia. rewrite Nat.eqb_refl. reflexivity.
  Qed.

  Lemma start_inv V st : columns N K V -> orthonormal N K V -> l_start root syev op N K V = Ok st ->
    linv 0 st /\ s_conv st = [] /\ forall k X, k <= K -> length X = k -> orthonormal K k X -> (first_sum k (s_LAM st) <= Sigma k (fun i => expectation N A (gemv_nn N V (nth i X []))))%Qc.
  Proof.
    intros CV OV H. unfold l_start in H. apply bind_inv in H. destruct H as (AX & HA & H). pose proof (OP _ _ _ CV HA) as IM.
    apply bind_inv in H. destruct H as ([LAM C] & HR & H). destruct (rr_inv K V AX LAM C CV OV IM HR) as (LL & CC & OC & AW & DI & KY & KG). cbv zeta in H.
    apply bind_inv in H. destruct H as ([[R ab] re] & HRES & H). injection H as <-.
    pose proof (rotate_columns N V C K (proj1 CC)) as CX. pose proof (image_rotate N A V AX C IM) as IMN.
    destruct (residuals_inv _ _ _ _ _ _ CX IMN HRES) as (CR & Lab & Lre & RES).
    split; [constructor; cbn [s_X s_P s_AX s_AP s_LAM s_V s_ABS s_REL]|cbn [s_conv s_LAM]; split; [reflexivity|exact KG]].
    - exact CX.
    - split; [reflexivity|intros c []].
    - rewrite app_nil_r, Nat.add_0_r. apply rotate_orth; [rewrite (proj1 CV); exact OV|exact (proj1 CC)|rewrite (proj1 CV); exact OC].
    - exact IMN.
    - split; [reflexivity|cbn; lia].
    - intros i j Hi Hj. rewrite !rotate_nth by (rewrite (proj1 CC); lia). apply DI; assumption.
    - rewrite LL. lia.
    - exact AW.
    - exact CR.
    - exact Lab.
    - exact Lre.
    - exact RES.
  Qed.
End STEP.
